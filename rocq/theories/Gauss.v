(** Real analysis used by C79: improper integrals over the line and hline-line, differentiation under the integral sign, the Gaussian integral,
    the laws drawn by the estimators and the identities behind them.  This file is a specification and proof library: it models no code. *)
From Coq Require Import Reals Lra Lia Psatz.
From Coquelicot Require Import Coquelicot.
Open Scope R_scope.

(** ** Integrals over the whole line *)
Definition line (f : R -> R) (l : R) : Prop := is_RInt_gen (V := R_NormedModule) f (Rbar_locally m_infty) (Rbar_locally p_infty) l.

Lemma cancel_l (a b : R) : a + b - a = b. Proof. ring. Qed.
Lemma cancel_r (a b : R) : a + b - b = a. Proof. ring. Qed.
Lemma regroup (a b c d : R) : a + b - (c + d) = (a - c) + (b - d). Proof. ring. Qed.
Lemma cont_ex (f : R -> R) : (forall x, continuous f x) -> forall a b, ex_RInt (V := R_CompleteNormedModule) f a b.
Proof. intros Hf a b. apply (ex_RInt_continuous (V := R_CompleteNormedModule)). intros; apply Hf. Qed.

Lemma line_intro f l : (forall x, continuous f x) -> (forall eps, 0 < eps -> exists M, forall a b, a < - M -> M < b -> Rabs (RInt f a b - l) < eps) -> line f l.
Proof.
  intros Hf H P (eps & HP). destruct (H eps (cond_pos eps)) as (M & HM).
  exists (fun a => a < - M) (fun b => M < b).
  - exists (- M). auto.
  - exists M. auto.
  - intros a b Ha Hb. exists (RInt f a b). split; [apply (RInt_correct (V := R_CompleteNormedModule)), cont_ex, Hf|]. apply HP. apply HM; assumption.
Qed.
Lemma line_elim f l : line f l -> forall eps, 0 < eps -> exists M, forall a b, a < - M -> M < b -> ex_RInt f a b /\ Rabs (RInt f a b - l) < eps.
Proof.
  intros H eps He. specialize (H (fun y => Rabs (y - l) < eps)). destruct H as [Q R (Ma & Hq) (Mb & Hr) HH].
  { exists (mkposreal eps He). intros y Hy. exact Hy. }
  exists (Rmax (- Ma) Mb). intros a b Ha Hb.
  destruct (HH a b) as (y & Iy & Hy).
  - apply Hq. pose proof (Rmax_l (- Ma) Mb). lra.
  - apply Hr. pose proof (Rmax_r (- Ma) Mb). lra.
  - split; [exists y; exact Iy|]. cbn in Iy. rewrite (is_RInt_unique _ _ _ _ Iy). exact Hy.
Qed.
Lemma line_unique f l l' : line f l -> line f l' -> l = l'.
Proof. intros H H'. rewrite <- (is_RInt_gen_unique f l H). now apply is_RInt_gen_unique. Qed.
Lemma line_ext f g l : (forall x, f x = g x) -> line f l -> line g l.
Proof. intros E. apply is_RInt_gen_ext. exists (fun _ => True) (fun _ => True); [exists 0; auto|exists 0; auto|]. intros; apply E. Qed.
Lemma line_scal k f l : line f l -> line (fun x => k * f x) (k * l).
Proof. intros H. apply (is_RInt_gen_scal (V := R_NormedModule) f k l H). Qed.
Lemma line_plus f g l m : line f l -> line g m -> line (fun x => f x + g x) (l + m).
Proof. intros H H'. apply (is_RInt_gen_plus (V := R_NormedModule) f g l m H H'). Qed.
Lemma line_minus f g l m : line f l -> line g m -> line (fun x => f x - g x) (l - m).
Proof. intros H H'. apply (is_RInt_gen_minus (V := R_NormedModule) f g l m H H'). Qed.

(** ** Domination by an exponential *)
Definition expdom (K : R) (f : R -> R) : Prop := forall x, Rabs (f x) <= K * exp (- Rabs x).

Lemma is_RInt_exp k a b : k <> 0 -> is_RInt (fun x => exp (k * x)) a b ((exp (k * b) - exp (k * a)) / k).
Proof.
  intros Hk. replace ((exp (k * b) - exp (k * a)) / k) with (minus (exp (k * b) / k) (exp (k * a) / k)) by (unfold minus, plus, opp; cbn; field; exact Hk).
  apply (is_RInt_derive (V := R_CompleteNormedModule) (fun x => exp (k * x) / k)).
  - intros x _. auto_derive; [exact I|]. field. exact Hk.
  - intros x _. apply (ex_derive_continuous (K := R_AbsRing) (V := R_NormedModule)). auto_derive. exact I.
Qed.
Lemma dom_right K f a b : (forall x, continuous f x) -> expdom K f -> 0 <= a <= b -> Rabs (RInt f a b) <= K * (exp (- a) - exp (- b)).
Proof.
  intros Hf HK [Ha Hb].
  assert (I2 : is_RInt (fun x => K * exp (-1 * x)) a b (K * ((exp (-1 * b) - exp (-1 * a)) / -1))) by (apply (is_RInt_scal (V := R_NormedModule) (fun x => exp (-1 * x))), is_RInt_exp; lra).
  replace (K * (exp (- a) - exp (- b))) with (K * ((exp (-1 * b) - exp (-1 * a)) / -1)).
  2:{ replace (-1 * b) with (- b) by ring. replace (-1 * a) with (- a) by ring. field. }
  refine (norm_RInt_le (V := R_NormedModule) f _ a b _ _ Hb _ (RInt_correct (V := R_CompleteNormedModule) _ _ _ (cont_ex f Hf a b)) I2).
  intros x Hx. specialize (HK x). rewrite (Rabs_pos_eq x) in HK by lra. replace (-1 * x) with (- x) by ring. exact HK.
Qed.
Lemma dom_left K f a b : (forall x, continuous f x) -> expdom K f -> a <= b <= 0 -> Rabs (RInt f a b) <= K * (exp b - exp a).
Proof.
  intros Hf HK [Ha Hb].
  assert (I2 : is_RInt (fun x => K * exp (1 * x)) a b (K * ((exp (1 * b) - exp (1 * a)) / 1))) by (apply (is_RInt_scal (V := R_NormedModule) (fun x => exp (1 * x))), is_RInt_exp; lra).
  replace (K * (exp b - exp a)) with (K * ((exp (1 * b) - exp (1 * a)) / 1)) by (rewrite !Rmult_1_l; field).
  refine (norm_RInt_le (V := R_NormedModule) f _ a b _ _ Ha _ (RInt_correct (V := R_CompleteNormedModule) _ _ _ (cont_ex f Hf a b)) I2).
  intros x Hx. specialize (HK x). rewrite (Rabs_left1 x), Ropp_involutive in HK by lra. rewrite Rmult_1_l. exact HK.
Qed.
Lemma expdom_nonneg K f : expdom K f -> 0 <= K.
Proof. intros H. specialize (H 0). rewrite Rabs_R0, Ropp_0, exp_0, Rmult_1_r in H. eapply Rle_trans; [apply Rabs_pos|exact H]. Qed.
Lemma chasles f a b c : (forall x, continuous f x) -> RInt f a b + RInt f b c = RInt f a c.
Proof. intros Hf. apply (RInt_Chasles (V := R_CompleteNormedModule)); now apply cont_ex. Qed.

Lemma exp_tail eps : 0 < eps -> exists M, 0 < M /\ forall b, M <= b -> exp (- b) < eps.
Proof.
  intros He. exists (Rmax 1 (1 - ln eps)). split; [eapply Rlt_le_trans; [apply Rlt_0_1|apply Rmax_l]|]. intros b Hb. rewrite <- (exp_ln eps He). apply exp_increasing. pose proof (Rmax_r 1 (1 - ln eps)). lra.
Qed.

Lemma line_dom K f : (forall x, continuous f x) -> expdom K f -> exists l, line f l /\ forall a b, a <= 0 <= b -> Rabs (RInt f a b - l) <= K * (exp a + exp (- b)).
Proof.
  intros Hf HK. pose proof (expdom_nonneg K f HK) as K0.
  assert (HR : exists lr, forall b, 0 <= b -> Rabs (RInt f 0 b - lr) <= K * exp (- b)).
  { assert (Hc : ex_finite_lim_seq (fun n => RInt f 0 (INR n))).
    { apply ex_lim_seq_cauchy_corr. intros eps. destruct (exp_tail (eps / (K + 1))) as (M & HM0 & HM); [apply Rdiv_lt_0_compat; [apply cond_pos|lra]|].
      destruct (nfloor_ex M) as (N & HN); [lra|]. exists (S N). 
      assert (Hcase : forall n m, (S N <= n)%nat -> (n <= m)%nat -> Rabs (RInt f 0 (INR m) - RInt f 0 (INR n)) < eps).
      { intros n m Hn Hm. rewrite <- (chasles f 0 (INR n) (INR m) Hf). rewrite cancel_l.
        assert (Hn' : M <= INR n) by (apply le_INR in Hn; rewrite S_INR in Hn; lra). assert (Hm' : INR n <= INR m) by now apply le_INR.
        eapply Rle_lt_trans; [apply (dom_right K); [exact Hf|exact HK|lra]|]. specialize (HM (INR n) Hn'). pose proof (exp_pos (- INR m)).
        apply Rle_lt_trans with (K * exp (- INR n)); [nra|]. apply Rle_lt_trans with (K * (eps / (K + 1))); [nra|]. destruct eps as [e He]; cbn in *. apply Rmult_lt_reg_r with (K + 1); [lra|]. replace (K * (e / (K + 1)) * (K + 1)) with (K * e) by (field; lra). nra. }
      intros n m Hn Hm. destruct (Nat.le_ge_cases n m) as [L|L]; [rewrite Rabs_minus_sym|]; now apply Hcase. }
    destruct Hc as (lr & Hlr). exists lr. intros b Hb.
    apply (is_lim_seq_le_loc (fun n => Rabs (RInt f 0 b - RInt f 0 (INR n))) (fun _ => K * exp (- b)) (Finite (Rabs (RInt f 0 b - lr))) (Finite (K * exp (- b)))).
    - destruct (nfloor_ex b Hb) as (N & HN). exists (S N). intros n Hn. apply le_INR in Hn. rewrite S_INR in Hn. rewrite Rabs_minus_sym, <- (chasles f 0 b (INR n) Hf). rewrite cancel_l.
      eapply Rle_trans; [apply (dom_right K); [exact Hf|exact HK|lra]|]. pose proof (exp_pos (- INR n)). nra.
    - apply (is_lim_seq_abs _ (Finite (RInt f 0 b - lr))). apply is_lim_seq_minus'; [apply is_lim_seq_const|exact Hlr].
    - apply is_lim_seq_const. }
  assert (HL : exists ll, forall a, a <= 0 -> Rabs (RInt f a 0 - ll) <= K * exp a).
  { assert (Hc : ex_finite_lim_seq (fun n => RInt f (- INR n) 0)).
    { apply ex_lim_seq_cauchy_corr. intros eps. destruct (exp_tail (eps / (K + 1))) as (M & HM0 & HM); [apply Rdiv_lt_0_compat; [apply cond_pos|lra]|].
      destruct (nfloor_ex M) as (N & HN); [lra|]. exists (S N).
      assert (Hcase : forall n m, (S N <= n)%nat -> (n <= m)%nat -> Rabs (RInt f (- INR m) 0 - RInt f (- INR n) 0) < eps).
      { intros n m Hn Hm. rewrite <- (chasles f (- INR m) (- INR n) 0 Hf). rewrite cancel_r.
        assert (Hn' : M <= INR n) by (apply le_INR in Hn; rewrite S_INR in Hn; lra). assert (Hm' : INR n <= INR m) by now apply le_INR.
        eapply Rle_lt_trans; [apply (dom_left K); [exact Hf|exact HK|lra]|]. specialize (HM (INR n) Hn'). pose proof (exp_pos (- INR m)).
        apply Rle_lt_trans with (K * exp (- INR n)); [nra|]. apply Rle_lt_trans with (K * (eps / (K + 1))); [nra|]. destruct eps as [e He]; cbn in *. apply Rmult_lt_reg_r with (K + 1); [lra|]. replace (K * (e / (K + 1)) * (K + 1)) with (K * e) by (field; lra). nra. }
      intros n m Hn Hm. destruct (Nat.le_ge_cases n m) as [L|L]; [rewrite Rabs_minus_sym|]; now apply Hcase. }
    destruct Hc as (ll & Hll). exists ll. intros a Ha.
    apply (is_lim_seq_le_loc (fun n => Rabs (RInt f a 0 - RInt f (- INR n) 0)) (fun _ => K * exp a) (Finite (Rabs (RInt f a 0 - ll))) (Finite (K * exp a))).
    - destruct (nfloor_ex (- a)) as (N & HN); [lra|]. exists (S N). intros n Hn. apply le_INR in Hn. rewrite S_INR in Hn. rewrite Rabs_minus_sym, <- (chasles f (- INR n) a 0 Hf). rewrite cancel_r.
      eapply Rle_trans; [apply (dom_left K); [exact Hf|exact HK|lra]|]. pose proof (exp_pos (- INR n)). nra.
    - apply (is_lim_seq_abs _ (Finite (RInt f a 0 - ll))). apply is_lim_seq_minus'; [apply is_lim_seq_const|exact Hll].
    - apply is_lim_seq_const. }
  destruct HR as (lr & HR), HL as (ll & HL). exists (ll + lr).
  assert (HB : forall a b, a <= 0 <= b -> Rabs (RInt f a b - (ll + lr)) <= K * (exp a + exp (- b))).
  { intros a b [Ha Hb]. rewrite <- (chasles f a 0 b Hf). rewrite regroup. eapply Rle_trans; [apply Rabs_triang|]. specialize (HL a Ha). specialize (HR b Hb). lra. }
  split; [|exact HB]. apply line_intro; [exact Hf|]. intros eps He. destruct (exp_tail (eps / (2 * (K + 1)))) as (M & HM0 & HM); [apply Rdiv_lt_0_compat; lra|].
  exists M. intros a b Ha Hb. eapply Rle_lt_trans; [apply HB; lra|]. pose proof (HM b ltac:(lra)) as H1. pose proof (HM (- a) ltac:(lra)) as H2. rewrite Ropp_involutive in H2.
  apply Rle_lt_trans with (K * (2 * (eps / (2 * (K + 1))))); [pose proof (exp_pos a); pose proof (exp_pos (- b)); nra|].
  apply Rmult_lt_reg_r with (K + 1); [lra|]. replace (K * (2 * (eps / (2 * (K + 1)))) * (K + 1)) with (K * eps) by (field; lra). nra.
Qed.

(** ** Fundamental theorem *)
Lemma line_derive K G g : (forall x, is_derive G x (g x)) -> (forall x, continuous g x) -> expdom K G -> line g 0.
Proof.
  intros HG Hg HK. pose proof (expdom_nonneg _ _ HK) as K0. apply line_intro; [exact Hg|]. intros eps He. destruct (exp_tail (eps / (2 * (K + 1)))) as (M & HM0 & HM); [apply Rdiv_lt_0_compat; lra|].
  exists M. intros a b Ha Hb. rewrite Rminus_0_r.
  assert (E : RInt g a b = G b - G a). { apply is_RInt_unique. apply (is_RInt_derive (V := R_CompleteNormedModule) G g); intros; [apply HG|apply Hg]. }
  rewrite E. pose proof (HK a) as H1. pose proof (HK b) as H2. rewrite (Rabs_left a) in H1 by lra. rewrite (Rabs_right b) in H2 by lra.
  pose proof (HM b ltac:(lra)) as H3. pose proof (HM (- a) ltac:(lra)) as H4.
  apply Rle_lt_trans with (K * (2 * (eps / (2 * (K + 1))))). { unfold Rminus. eapply Rle_trans; [apply Rabs_triang|]. rewrite Rabs_Ropp. nra. }
  apply Rmult_lt_reg_r with (K + 1); [lra|]. replace (K * (2 * (eps / (2 * (K + 1)))) * (K + 1)) with (K * eps) by (field; lra). nra.
Qed.

(** ** Affine change of variables *)
Lemma line_affine f l m s : 0 < s -> (forall x, continuous f x) -> line f l -> line (fun x => s * f (m + s * x)) l.
Proof.
  intros Hs Hf H. assert (Hc : forall x, continuous (fun x => s * f (m + s * x)) x).
  { intros x. apply (continuous_scal_r (V := R_NormedModule) s (fun x => f (m + s * x)) x). apply (continuous_comp (fun x => m + s * x) f); [|apply Hf]. apply (ex_derive_continuous (K := R_AbsRing) (V := R_NormedModule)). auto_derive. exact I. }
  apply line_intro; [exact Hc|]. intros eps He. destruct (line_elim f l H eps He) as (M & HM).
  exists ((Rabs M + Rabs m) / s). intros a b Ha Hb.
  assert (Ha' : m + s * a < - M). { apply Rmult_lt_compat_l with (r := s) in Ha; [|exact Hs]. replace (s * - ((Rabs M + Rabs m) / s)) with (- (Rabs M + Rabs m)) in Ha by (field; lra). pose proof (Rle_abs m). pose proof (Rle_abs M). lra. }
  assert (Hb' : M < m + s * b). { apply Rmult_lt_compat_l with (r := s) in Hb; [|exact Hs]. replace (s * ((Rabs M + Rabs m) / s)) with (Rabs M + Rabs m) in Hb by (field; lra). pose proof (Rle_abs (- m)). rewrite Rabs_Ropp in *. pose proof (Rle_abs M). lra. }
  destruct (HM _ _ Ha' Hb') as (_ & HB).
  assert (E : RInt (fun x => s * f (m + s * x)) a b = RInt f (m + s * a) (m + s * b)).
  { apply is_RInt_unique. replace (m + s * a) with (s * a + m) by ring. replace (m + s * b) with (s * b + m) by ring.
    apply (is_RInt_ext (fun x => scal s (f (s * x + m)))); [intros x _; unfold scal; cbn; unfold mult; cbn; do 2 f_equal; ring|].
    apply (is_RInt_comp_lin (V := R_NormedModule) f s m a b). apply (RInt_correct (V := R_CompleteNormedModule)), cont_ex, Hf. }
  rewrite E. exact HB.
Qed.

(** ** Differentiation under the integral *)
Lemma is_derive_eps (f : R -> R) x l : (forall eps, 0 < eps -> exists d, 0 < d /\ forall y, Rabs (y - x) < d -> Rabs (f y - f x - (y - x) * l) <= eps * Rabs (y - x)) -> is_derive f x l.
Proof.
  intros H. split; [apply (is_linear_scal_l (K := R_AbsRing) (V := R_NormedModule) l)|]. intros y Hy. 
  assert (y = x). { symmetry. apply (is_filter_lim_locally_unique (K := R_AbsRing) (V := R_NormedModule)). exact Hy. } subst y.
  intros eps. destruct (H eps (cond_pos eps)) as (d & Hd & HB). exists (mkposreal d Hd). intros y Hyd. specialize (HB y Hyd).
  unfold minus, plus, opp, scal, norm; cbn. unfold mult, abs; cbn. exact HB.
Qed.
Lemma derive_eps (f : R -> R) x l : is_derive f x l -> forall eps, 0 < eps -> exists d, 0 < d /\ forall y, Rabs (y - x) < d -> Rabs (f y - f x - (y - x) * l) <= eps * Rabs (y - x).
Proof.
  intros [_ H] eps He. specialize (H x (fun P HP => HP) (mkposreal eps He)). destruct H as (d & Hd). exists d. split; [apply cond_pos|]. intros y Hy. exact (Hd y Hy).
Qed.

Section Diff.
  Variables (f df : R -> R -> R) (t0 r K : R).
  Hypotheses (Hr : 0 < r)
    (Hfc : forall t x, Rabs (t - t0) < r -> continuous (f t) x)
    (Hd : forall t x, Rabs (t - t0) < r -> is_derive (fun t => f t x) t (df t x))
    (Hc : forall t x, Rabs (t - t0) < r -> continuity_2d_pt df t x)
    (Hf : forall t, Rabs (t - t0) < r -> expdom K (f t))
    (Hdf : forall t, Rabs (t - t0) < r -> expdom K (df t)).
  Lemma ball_open t : Rabs (t - t0) < r -> locally t (fun u => Rabs (u - t0) < r).
  Proof.
    intros Ht. exists (mkposreal (r - Rabs (t - t0)) ltac:(lra)). intros u Hu. change (Rabs (u - t) < r - Rabs (t - t0)) in Hu. replace (u - t0) with ((u - t) + (t - t0)) by ring. eapply Rle_lt_trans; [apply Rabs_triang|]. lra.
  Qed.
  Lemma df_cont t x : Rabs (t - t0) < r -> continuous (df t) x.
  Proof.
    intros Ht. specialize (Hc t x Ht). intros P (eps & HP). destruct (Hc eps) as (d & HD). exists d. intros y Hy. apply HP. apply HD; [rewrite Rminus_eq_0, Rabs_R0; apply cond_pos|exact Hy].
  Qed.
  Lemma derive_RInt t a b : Rabs (t - t0) < r -> is_derive (fun u => RInt (f u) a b) t (RInt (df t) a b).
  Proof.
    intros Ht. assert (E : RInt (df t) a b = RInt (fun x => Derive (fun u => f u x) t) a b).
    { apply RInt_ext. intros x _. symmetry. apply is_derive_unique. now apply Hd. }
    rewrite E. apply (is_derive_RInt_param f a b t).
    - apply (filter_imp (fun u => Rabs (u - t0) < r)); [|now apply ball_open]. intros u Hu x _. exists (df u x). now apply Hd.
    - intros x _. apply (continuity_2d_pt_ext_loc df); [|now apply Hc].
      destruct (ball_open t Ht) as (d & HD). exists d. intros u v Hu _. symmetry. apply is_derive_unique, Hd, HD. exact Hu.
    - apply (filter_imp (fun u => Rabs (u - t0) < r)); [|now apply ball_open]. intros u Hu. apply cont_ex. intros x. now apply Hfc.
  Qed.
  Lemma diff_line (I : R -> R) : (forall t, Rabs (t - t0) < r -> line (f t) (I t)) -> exists l, line (df t0) l /\ is_derive I t0 l.
  Proof.
    intros HI. assert (H0 : Rabs (t0 - t0) < r) by (rewrite Rminus_eq_0, Rabs_R0; exact Hr).
    destruct (line_dom K (df t0) (fun x => df_cont t0 x H0) (Hdf t0 H0)) as (l & Ll & Hl). exists l. split; [exact Ll|].
    pose proof (expdom_nonneg _ _ (Hdf t0 H0)) as K0.
    assert (HB : forall t a b, Rabs (t - t0) < r -> a <= 0 <= b -> Rabs (RInt (f t) a b - I t) <= K * (exp a + exp (- b))).
    { intros t a b Ht Hab. destruct (line_dom K (f t) (fun x => Hfc t x Ht) (Hf t Ht)) as (l' & Ll' & Hl'). rewrite (line_unique _ _ _ (HI t Ht) Ll'). now apply Hl'. }
    (* the tails are Lipschitz in the parameter *)
    assert (HT : forall t n, Rabs (t - t0) < r -> 0 <= n -> Rabs ((I t - RInt (f t) (- n) n) - (I t0 - RInt (f t0) (- n) n)) <= 2 * K * exp (- n) * Rabs (t - t0)).
    { intros t n Ht Hn.
      assert (Hm : forall m, n <= m -> Rabs ((RInt (f t) (- m) m - RInt (f t) (- n) n) - (RInt (f t0) (- m) m - RInt (f t0) (- n) n)) <= 2 * K * exp (- n) * Rabs (t - t0)).
      { intros m Hm. 
        destruct (MVT_gen (fun u => RInt (f u) (- m) m - RInt (f u) (- n) n) t0 t (fun u => RInt (df u) (- m) m - RInt (df u) (- n) n)) as (c & Hcc & E).
        - intros u Hu. assert (Hu' : Rabs (u - t0) < r). { destruct (Rle_dec t0 t) as [L|L]; [rewrite Rmin_left, Rmax_right in Hu by lra|rewrite Rmin_right, Rmax_left in Hu by lra]; unfold Rabs in *; repeat destruct (Rcase_abs _); lra. }
          apply (is_derive_minus (K := R_AbsRing) (V := R_NormedModule)); now apply derive_RInt.
        - intros u Hu. assert (Hu' : Rabs (u - t0) < r). { destruct (Rle_dec t0 t) as [L|L]; [rewrite Rmin_left, Rmax_right in Hu by lra|rewrite Rmin_right, Rmax_left in Hu by lra]; unfold Rabs in *; repeat destruct (Rcase_abs _); lra. }
          apply continuity_pt_filterlim. apply (ex_derive_continuous (K := R_AbsRing) (V := R_NormedModule) (fun u => RInt (f u) (- m) m - RInt (f u) (- n) n)).
          eexists. apply (is_derive_minus (K := R_AbsRing) (V := R_NormedModule)); now apply derive_RInt.
        - rewrite E, Rabs_mult. apply Rmult_le_compat_r; [apply Rabs_pos|].
          assert (Hc' : Rabs (c - t0) < r). { destruct (Rle_dec t0 t) as [L|L]; [rewrite Rmin_left, Rmax_right in Hcc by lra|rewrite Rmin_right, Rmax_left in Hcc by lra]; unfold Rabs in *; repeat destruct (Rcase_abs _); lra. }
          assert (Hcd : forall x, continuous (df c) x) by (intros x; now apply df_cont).
          rewrite <- (chasles (df c) (- m) (- n) m Hcd), <- (chasles (df c) (- n) n m Hcd).
          match goal with |- Rabs (?a + (?b + ?c) - ?b) <= _ => replace (a + (b + c) - b) with (a + c) by ring end.
          eapply Rle_trans; [apply Rabs_triang|].
          pose proof (dom_left K (df c) (- m) (- n) Hcd (Hdf c Hc') ltac:(lra)). pose proof (dom_right K (df c) n m Hcd (Hdf c Hc') ltac:(lra)).
          pose proof (exp_pos (- m)). nra. }
      (* let m grow *)
      apply Rnot_lt_le. intros Hlt. match type of Hlt with ?b < ?a => set (A := a) in Hlt; set (B := b) in * end.
      destruct (exp_tail ((A - B) / (8 * (K + 1)))) as (M & HM0 & HM); [apply Rdiv_lt_0_compat; lra|]. set (m := Rmax n M).
      specialize (Hm m (Rmax_l _ _)). pose proof (HM m (Rmax_r _ _)) as He. assert (Hm0 : 0 <= m) by (eapply Rle_trans; [exact Hn|apply Rmax_l]).
      pose proof (HB t (- m) m Ht ltac:(lra)) as B1. pose proof (HB t0 (- m) m H0 ltac:(lra)) as B2.
      assert (He2 : K * (exp (- m) + exp (- m)) <= (A - B) / 4). { apply Rle_trans with (K * (2 * ((A - B) / (8 * (K + 1))))); [nra|]. apply Rmult_le_reg_r with (4 * (K + 1)); [lra|]. replace (K * (2 * ((A - B) / (8 * (K + 1)))) * (4 * (K + 1))) with (K * (A - B)) by (field; lra). replace ((A - B) / 4 * (4 * (K + 1))) with ((A - B) * (K + 1)) by field. nra. }
      assert (A <= B + (A - B) / 4 + (A - B) / 4); [|lra]. clearbody B. 
      assert (EA : A = Rabs (((RInt (f t) (- m) m - RInt (f t) (- n) n) - (RInt (f t0) (- m) m - RInt (f t0) (- n) n)) + (- (RInt (f t) (- m) m - I t) + (RInt (f t0) (- m) m - I t0)))) by (unfold A; f_equal; ring).
      clearbody A. rewrite EA at 1. eapply Rle_trans; [apply Rabs_triang|]. eapply Rle_trans; [apply Rplus_le_compat_l, Rabs_triang|]. rewrite Rabs_Ropp.
      eapply Rle_trans; [apply Rplus_le_compat; [exact Hm|apply Rplus_le_compat; [exact B1|exact B2]]|]. lra. }
    apply is_derive_eps. intros eps He. destruct (exp_tail (eps / (8 * (K + 1)))) as (M & HM0 & HM); [apply Rdiv_lt_0_compat; lra|].
    specialize (HM M (Rle_refl M)).
    assert (Hk : 2 * K * exp (- M) <= eps / 4). { apply Rle_trans with (2 * K * (eps / (8 * (K + 1)))); [nra|]. apply Rmult_le_reg_r with (4 * (K + 1)); [lra|]. replace (2 * K * (eps / (8 * (K + 1))) * (4 * (K + 1))) with (K * eps) by (field; lra). replace (eps / 4 * (4 * (K + 1))) with (eps * (K + 1)) by field. nra. }
    destruct (derive_eps _ _ _ (derive_RInt t0 (- M) M H0) (eps / 4) ltac:(lra)) as (d & Hd0 & HD).
    exists (Rmin d r). split; [now apply Rmin_glb_lt|]. intros t Ht. pose proof (Rmin_l d r). pose proof (Rmin_r d r).
    specialize (HD t ltac:(lra)). specialize (HT t M ltac:(lra) ltac:(lra)). specialize (Hl (- M) M ltac:(lra)).
    set (In := fun t => RInt (f t) (- M) M) in *. set (Ln := RInt (df t0) (- M) M) in *. cbv beta in HD. change (RInt (f t) (- M) M) with (In t) in *. change (RInt (f t0) (- M) M) with (In t0) in *.
    replace (I t - I t0 - (t - t0) * l) with ((I t - In t - (I t0 - In t0)) + ((In t - In t0 - (t - t0) * Ln) + (t - t0) * (Ln - l))) by ring.
    eapply Rle_trans; [apply Rabs_triang|]. eapply Rle_trans; [apply Rplus_le_compat_l, Rabs_triang|]. rewrite Rabs_mult. pose proof (Rabs_pos (t - t0)). pose proof (Rabs_pos (Ln - l)).
    assert (Rabs (Ln - l) <= eps / 4) by lra. nra.
  Qed.
End Diff.

(** ** The laws *)
Definition npdf (x : R) : R := exp (- (x * x) / 2) / sqrt (2 * PI).
Definition hline (f : R -> R) (l : R) : Prop := is_RInt_gen (V := R_NormedModule) f (at_point 0) (Rbar_locally p_infty) l.

Lemma sqrt2pi_ge1 : 1 <= sqrt (2 * PI).
Proof. rewrite <- sqrt_1. apply sqrt_le_1_alt. pose proof PI2_1. lra. Qed.
Lemma sqrt2pi_pos : 0 < sqrt (2 * PI). Proof. pose proof sqrt2pi_ge1. lra. Qed.
Lemma npdf_le x : 0 < npdf x <= exp (- (x * x) / 2).
Proof.
  pose proof sqrt2pi_ge1. pose proof (exp_pos (- (x * x) / 2)). unfold npdf. split; [apply Rdiv_lt_0_compat; lra|]. apply Rmult_le_reg_r with (sqrt (2 * PI)); [lra|]. unfold Rdiv at 1. rewrite Rmult_assoc, Rinv_l by lra. nra.
Qed.
Lemma npdf_derive x : is_derive npdf x (- x * npdf x).
Proof. unfold npdf, Rdiv. pose proof sqrt2pi_pos. auto_derive; [lra|]. field. lra. Qed.
Lemma derive_cont (f : R -> R) x l : is_derive f x l -> continuous f x.
Proof. intros H. apply (ex_derive_continuous (K := R_AbsRing) (V := R_NormedModule)). exists l. exact H. Qed.
Lemma npdf_cont x : continuous npdf x. Proof. exact (derive_cont _ _ _ (npdf_derive x)). Qed.

(** ** Functions of at most exponential growth *)
Definition tame (h : R -> R) : Prop := exists C c, 0 <= c /\ forall x, Rabs (h x) <= C * exp (c * Rabs x).
Lemma tame_nonneg h C c : (forall x, Rabs (h x) <= C * exp (c * Rabs x)) -> 0 <= C.
Proof. intros H. specialize (H 0). rewrite Rabs_R0, Rmult_0_r, exp_0, Rmult_1_r in H. eapply Rle_trans; [apply Rabs_pos|exact H]. Qed.
Lemma exp_mono a b : a <= b -> exp a <= exp b.
Proof. intros [H| ->]; [left; now apply exp_increasing|right; reflexivity]. Qed.
Lemma tame_const k : tame (fun _ => k).
Proof. exists (Rabs k), 0. split; [lra|]. intros x. rewrite Rmult_0_l, exp_0. lra. Qed.
Lemma abs_le_exp x : Rabs x <= exp (Rabs x).
Proof. pose proof (exp_ineq1_le (Rabs x)). pose proof (Rabs_pos x). lra. Qed.
Lemma tame_id : tame (fun x => x).
Proof. exists 1, 1. split; [lra|]. intros x. rewrite !Rmult_1_l. apply abs_le_exp. Qed.
Lemma tame_mult f g : tame f -> tame g -> tame (fun x => f x * g x).
Proof.
  intros (C & c & Hc & H) (C' & c' & Hc' & H'). exists (C * C'), (c + c'). split; [lra|]. intros x. rewrite Rabs_mult. replace (C * C' * exp ((c + c') * Rabs x)) with ((C * exp (c * Rabs x)) * (C' * exp (c' * Rabs x))) by (rewrite Rmult_plus_distr_r, exp_plus; ring).
  apply Rmult_le_compat; auto; apply Rabs_pos.
Qed.
Lemma tame_plus f g : tame f -> tame g -> tame (fun x => f x + g x).
Proof.
  intros (C & c & Hc & H) (C' & c' & Hc' & H'). pose proof (tame_nonneg _ _ _ H). pose proof (tame_nonneg _ _ _ H'). exists (C + C'), (Rmax c c'). pose proof (Rmax_l c c'). pose proof (Rmax_r c c'). split; [lra|]. intros x. pose proof (Rabs_pos x).
  eapply Rle_trans; [apply Rabs_triang|]. rewrite Rmult_plus_distr_r. apply Rplus_le_compat.
  - eapply Rle_trans; [apply H|]. apply Rmult_le_compat_l; [assumption|]. apply exp_mono. nra.
  - eapply Rle_trans; [apply H'|]. apply Rmult_le_compat_l; [assumption|]. apply exp_mono. nra.
Qed.
Lemma tame_ext f g : (forall x, f x = g x) -> tame f -> tame g.
Proof. intros E (C & c & Hc & H). exists C, c. split; [exact Hc|]. intros x. rewrite <- E. apply H. Qed.
Lemma tame_affine h m s : tame h -> tame (fun x => h (m + s * x)).
Proof.
  intros (C & c & Hc & H). pose proof (tame_nonneg _ _ _ H). exists (C * exp (c * Rabs m)), (c * Rabs s). pose proof (Rabs_pos s). split; [nra|]. intros x. eapply Rle_trans; [apply H|]. rewrite Rmult_assoc, <- exp_plus. apply Rmult_le_compat_l; [assumption|]. apply exp_mono.
  pose proof (Rabs_triang m (s * x)) as T. rewrite Rabs_mult in T. nra.
Qed.
Lemma tame_dom h : tame h -> exists K, expdom K (fun x => h x * npdf x).
Proof.
  intros (C & c & Hc & H). pose proof (tame_nonneg _ _ _ H) as C0. exists (C * exp ((c + 1) * (c + 1) / 2)). intros x. rewrite Rabs_mult, (Rabs_pos_eq (npdf x)) by (left; apply npdf_le).
  apply Rle_trans with (C * exp (c * Rabs x) * exp (- (x * x) / 2)). { apply Rmult_le_compat; [apply Rabs_pos|left; apply npdf_le|apply H|apply npdf_le]. }
  rewrite !Rmult_assoc, <- !exp_plus. apply Rmult_le_compat_l; [exact C0|]. apply exp_mono. assert (E : x * x = Rabs x * Rabs x) by (unfold Rabs; destruct (Rcase_abs x); ring). rewrite E. set (a := Rabs x). assert (0 <= (a - (c + 1)) * (a - (c + 1))) by apply Rle_0_sqr. nra.
Qed.
Lemma cont_mult (f g : R -> R) x : continuous f x -> continuous g x -> continuous (fun x => f x * g x) x.
Proof. intros. now apply (continuous_mult (K := R_AbsRing) f g x). Qed.
Lemma cont_affine (h : R -> R) m s : (forall x, continuous h x) -> forall x, continuous (fun x => h (m + s * x)) x.
Proof. intros Hh x. apply (continuous_comp (fun x => m + s * x) h); [|apply Hh]. apply (ex_derive_continuous (K := R_AbsRing) (V := R_NormedModule)). auto_derive. exact I. Qed.

(** The expectation of g(Z) for a standard normal Z is l. *)
Definition E_normal (g : R -> R) (l : R) : Prop := line (fun x => g x * npdf x) l.
Lemma E_normal_ex g : tame g -> (forall x, continuous g x) -> exists l, E_normal g l.
Proof.
  intros Ht Hg. destruct (tame_dom g Ht) as (K & HK). destruct (line_dom K (fun x => g x * npdf x)) as (l & Hl & _); [intros x; apply cont_mult; [apply Hg|apply npdf_cont]|exact HK|]. exists l. exact Hl.
Qed.

(** ** Differentiating the expectation in the parameters of the Gaussian *)
Lemma ydom h C c A B B' m s y p : 0 <= c -> 0 <= C -> 0 <= B' -> Rabs m <= A -> 0 < s <= B -> Rabs (h y) <= C * exp (c * Rabs y) -> Rabs p <= B' * exp (2 * Rabs ((y - m) / s)) ->
  Rabs (h y * npdf ((y - m) / s) * p) <= C * B' * exp ((c + 1) * A + ((c + 1) * B + 2) * ((c + 1) * B + 2) / 2) * exp (- Rabs y).
Proof.
  intros Hc HC HB' Hm Hs Hh Hp. set (x := (y - m) / s) in *. rewrite !Rabs_mult, (Rabs_pos_eq (npdf x)) by (left; apply npdf_le).
  apply Rle_trans with (C * exp (c * Rabs y) * exp (- (x * x) / 2) * (B' * exp (2 * Rabs x))).
  { apply Rmult_le_compat; [apply Rmult_le_pos; [apply Rabs_pos|left; apply npdf_le]|apply Rabs_pos| |exact Hp]. apply Rmult_le_compat; [apply Rabs_pos|left; apply npdf_le|exact Hh|apply npdf_le]. }
  replace (C * exp (c * Rabs y) * exp (- (x * x) / 2) * (B' * exp (2 * Rabs x))) with (C * B' * (exp (c * Rabs y) * exp (- (x * x) / 2) * exp (2 * Rabs x))) by ring.
  rewrite (Rmult_assoc (C * B') (exp _) (exp _)), <- !exp_plus. apply Rmult_le_compat_l; [now apply Rmult_le_pos|]. apply exp_mono.
  assert (Hy : Rabs y <= A + B * Rabs x). { replace y with (m + s * x) by (unfold x; field; lra). eapply Rle_trans; [apply Rabs_triang|]. rewrite Rabs_mult, (Rabs_pos_eq s) by lra. pose proof (Rabs_pos x). nra. }
  assert (E : x * x = Rabs x * Rabs x) by (unfold Rabs; destruct (Rcase_abs x); ring). rewrite E. set (a := Rabs x) in *. pose proof (Rabs_pos x : 0 <= a).
  assert (0 <= (a - ((c + 1) * B + 2)) * (a - ((c + 1) * B + 2))) by apply Rle_0_sqr. assert ((c + 1) * Rabs y <= (c + 1) * (A + B * a)) by nra. nra.
Qed.
Lemma exp1_2 x : Rabs x <= exp (2 * Rabs x).
Proof. pose proof (abs_le_exp x). pose proof (Rabs_pos x). assert (exp (Rabs x) <= exp (2 * Rabs x)) by (apply exp_mono; lra). lra. Qed.
Lemma sq1_2 x : Rabs (x * x - 1) <= 2 * exp (2 * Rabs x).
Proof.
  pose proof (abs_le_exp x). pose proof (Rabs_pos x). assert (E : exp (2 * Rabs x) = exp (Rabs x) * exp (Rabs x)) by (rewrite <- exp_plus; f_equal; ring). assert (E2 : x * x = Rabs x * Rabs x) by (unfold Rabs; destruct (Rcase_abs x); ring).
  assert (1 <= exp (2 * Rabs x)) by (rewrite <- exp_0 at 1; apply exp_mono; lra). rewrite E2, E in *. apply Rabs_le. nra.
Qed.

Section Param.
  Variable h : R -> R.
  Hypotheses (Hh : forall x, continuous h x) (Ht : tame h).
  (** The expectation of h under the normal law of mean m and standard deviation exp(s). *)
  Definition gmean (m s : R) : R := RInt_gen (V := R_CompleteNormedModule) (fun x => h (m + exp s * x) * npdf x) (Rbar_locally m_infty) (Rbar_locally p_infty).

  Lemma h2d a b : continuity_2d_pt (fun _ y => h y) a b.
  Proof. apply (continuity_1d_2d_pt_comp h (fun _ y => y)); [apply continuity_pt_filterlim, Hh|apply continuity_2d_pt_id2]. Qed.
  Lemma inv2d a b : continuity_2d_pt (fun t _ => / exp t) a b.
  Proof.
    pose proof (exp_pos a). refine (continuity_1d_2d_pt_comp (fun t => / exp t) (fun t _ => t) a b _ (continuity_2d_pt_id1 a b)).
    apply continuity_pt_filterlim, (ex_derive_continuous (K := R_AbsRing) (V := R_NormedModule) (fun t => / exp t)). auto_derive. lra.
  Qed.
  Lemma std_arg m s x : (m + exp s * x - m) / exp s = x.
  Proof. field. pose proof (exp_pos s). lra. Qed.

  Lemma gmean_correct m s : E_normal (fun x => h (m + exp s * x)) (gmean m s).
  Proof.
    destruct (E_normal_ex (fun x => h (m + exp s * x)) (tame_affine h m (exp s) Ht) (cont_affine h m (exp s) Hh)) as (l & Hl).
    unfold gmean. rewrite (is_RInt_gen_unique (V := R_CompleteNormedModule) _ l Hl). exact Hl.
  Qed.
  (** In the variable y = m + exp(s) x. *)
  Lemma ypdf_cont m s y : continuous (fun y => npdf ((y - m) / exp s)) y.
  Proof. apply (continuous_comp (fun y => (y - m) / exp s) npdf); [|apply npdf_cont]. apply (ex_derive_continuous (K := R_AbsRing) (V := R_NormedModule)). auto_derive. pose proof (exp_pos s). lra. Qed.
  Lemma gmean_y m s l : line (fun y => h y * npdf ((y - m) / exp s) * / exp s) l -> l = gmean m s.
  Proof.
    intros Hl. apply (line_unique (fun x => h (m + exp s * x) * npdf x)); [|exact (gmean_correct m s)].
    apply (line_ext (fun x => exp s * (h (m + exp s * x) * npdf ((m + exp s * x - m) / exp s) * / exp s))); [intros x; rewrite std_arg; field; pose proof (exp_pos s); lra|].
    apply (line_affine (fun y => h y * npdf ((y - m) / exp s) * / exp s)); [apply exp_pos| |exact Hl].
    intros y. apply cont_mult; [apply cont_mult; [apply Hh|apply ypdf_cont]|apply continuous_const].
  Qed.

  Lemma gmean_dm m s : exists dm, E_normal (fun x => h (m + exp s * x) * (x / exp s)) dm /\ is_derive (fun m => gmean m s) m dm.
  Proof.
    pose proof (exp_pos s) as Hs. destruct Ht as (C & c & Hc & Hg). pose proof (tame_nonneg _ _ _ Hg) as C0.
    assert (Hf1 : forall t, Rabs (t - m) < 1 -> Rabs t <= Rabs m + 1). { intros t H. replace t with (m + (t - m)) by ring. eapply Rle_trans; [apply Rabs_triang|]. lra. }
    set (f := fun t y => h y * npdf ((y - t) / exp s) * / exp s). set (df := fun t y => h y * npdf ((y - t) / exp s) * ((y - t) / exp s / (exp s * exp s))).
    set (B' := / exp s + / (exp s * exp s)). assert (B0 : 0 < / exp s) by (apply Rinv_0_lt_compat; lra). assert (B1 : 0 < / (exp s * exp s)) by (apply Rinv_0_lt_compat; nra).
    set (K := C * B' * exp ((c + 1) * (Rabs m + 1) + ((c + 1) * exp s + 2) * ((c + 1) * exp s + 2) / 2)).
    destruct (diff_line f df m 1 K) with (I := fun m => gmean m s) as (l & Hl & Dl).
    - lra.
    - intros t y _. unfold f. apply cont_mult; [apply cont_mult; [apply Hh|apply ypdf_cont]|apply continuous_const].
    - intros t y _. unfold f, df. auto_derive; [repeat split; try lra; eexists; apply npdf_derive|]. rewrite (is_derive_unique (fun x => npdf x) _ _ (npdf_derive _)). unfold Rdiv, Rminus. field. lra.
    - intros t y _. unfold df. apply continuity_2d_pt_mult; [apply continuity_2d_pt_mult; [apply h2d|]|].
      + apply (continuity_1d_2d_pt_comp npdf (fun t y => (y - t) / exp s)); [apply continuity_pt_filterlim, npdf_cont|]. apply continuity_2d_pt_mult; [apply continuity_2d_pt_minus; [apply continuity_2d_pt_id2|apply continuity_2d_pt_id1]|apply continuity_2d_pt_const].
      + apply continuity_2d_pt_mult; [|apply continuity_2d_pt_const]. apply continuity_2d_pt_mult; [apply continuity_2d_pt_minus; [apply continuity_2d_pt_id2|apply continuity_2d_pt_id1]|apply continuity_2d_pt_const].
    - intros t Ht' y. unfold f. apply (ydom h C c (Rabs m + 1) (exp s) B' t (exp s) y); [exact Hc|exact C0|unfold B'; lra|now apply Hf1|lra|apply Hg|].
      rewrite Rabs_pos_eq by lra. assert (1 <= exp (2 * Rabs ((y - t) / exp s))) by (rewrite <- exp_0 at 1; apply exp_mono; pose proof (Rabs_pos ((y - t) / exp s)); lra). unfold B'. nra.
    - intros t Ht' y. unfold df. apply (ydom h C c (Rabs m + 1) (exp s) B' t (exp s) y); [exact Hc|exact C0|unfold B'; lra|now apply Hf1|lra|apply Hg|].
      unfold Rdiv at 1. rewrite Rabs_mult, (Rabs_pos_eq (/ (exp s * exp s))) by lra. pose proof (exp1_2 ((y - t) / exp s)). pose proof (exp_pos (2 * Rabs ((y - t) / exp s))). unfold B'. nra.
    - intros t Ht'. assert (Hex : exists l, line (f t) l).
      { destruct (line_dom K (f t)) as (l & Hl & _); [| |exists l; exact Hl].
        - intros y. unfold f. apply cont_mult; [apply cont_mult; [apply Hh|apply ypdf_cont]|apply continuous_const].
        - intros y. unfold f. apply (ydom h C c (Rabs m + 1) (exp s) B' t (exp s) y); [exact Hc|exact C0|unfold B'; lra|now apply Hf1|lra|apply Hg|].
          rewrite Rabs_pos_eq by lra. assert (1 <= exp (2 * Rabs ((y - t) / exp s))) by (rewrite <- exp_0 at 1; apply exp_mono; pose proof (Rabs_pos ((y - t) / exp s)); lra). unfold B'. nra. }
      destruct Hex as (l & Hl). rewrite <- (gmean_y t s l Hl). exact Hl.
    - exists l. split; [|exact Dl].
      assert (Hcd : forall y, continuous (df m) y). { intros y. unfold df. apply cont_mult; [apply cont_mult; [apply Hh|apply ypdf_cont]|]. apply (ex_derive_continuous (K := R_AbsRing) (V := R_NormedModule)). auto_derive. lra. }
      pose proof (line_affine (df m) l m (exp s) Hs Hcd Hl) as H2. eapply line_ext; [|exact H2]. intros x. cbv beta. unfold df. rewrite std_arg. field. lra.
  Qed.

  Lemma gmean_ds m s : exists ds, E_normal (fun x => h (m + exp s * x) * (x * x - 1)) ds /\ is_derive (fun s => gmean m s) s ds.
  Proof.
    destruct Ht as (C & c & Hc & Hg). pose proof (tame_nonneg _ _ _ Hg) as C0.
    set (f := fun t y => h y * npdf ((y - m) / exp t) * / exp t). set (df := fun t y => h y * npdf ((y - m) / exp t) * ((((y - m) / exp t) * ((y - m) / exp t) - 1) * / exp t)).
    set (B' := 2 * exp (1 - s)). pose proof (exp_pos (1 - s)) as B0.
    set (K := C * B' * exp ((c + 1) * Rabs m + ((c + 1) * exp (s + 1) + 2) * ((c + 1) * exp (s + 1) + 2) / 2)).
    assert (Hb : forall t, Rabs (t - s) < 1 -> 0 < exp t <= exp (s + 1) /\ 0 < / exp t <= exp (1 - s)).
    { intros t H. apply Rabs_lt_between in H. split; [split; [apply exp_pos|apply exp_mono; lra]|]. rewrite <- exp_Ropp. split; [apply exp_pos|apply exp_mono; lra]. }
    assert (Hf : forall t, Rabs (t - s) < 1 -> expdom K (f t)).
    { intros t H y. destruct (Hb t H) as (H1 & H2). unfold f. apply (ydom h C c (Rabs m) (exp (s + 1)) B' m (exp t) y); [exact Hc|exact C0|unfold B'; lra|lra|lra|apply Hg|].
      rewrite Rabs_pos_eq by lra. assert (1 <= exp (2 * Rabs ((y - m) / exp t))) by (rewrite <- exp_0 at 1; apply exp_mono; pose proof (Rabs_pos ((y - m) / exp t)); lra). unfold B'. nra. }
    destruct (diff_line f df s 1 K) with (I := fun s => gmean m s) as (l & Hl & Dl).
    - lra.
    - intros t y _. unfold f. apply cont_mult; [apply cont_mult; [apply Hh|apply ypdf_cont]|apply continuous_const].
    - intros t y _. pose proof (exp_pos t) as He. unfold f, df. auto_derive; [repeat split; try lra; eexists; apply npdf_derive|]. rewrite (is_derive_unique (fun x => npdf x) _ _ (npdf_derive _)). unfold Rdiv, Rminus. field. lra.
    - intros t y _. pose proof (exp_pos t) as He.
      assert (Hx : continuity_2d_pt (fun t y => (y - m) / exp t) t y). { apply continuity_2d_pt_mult; [apply continuity_2d_pt_minus; [apply continuity_2d_pt_id2|apply continuity_2d_pt_const]|]. exact (inv2d t y). }
      unfold df. apply continuity_2d_pt_mult; [apply continuity_2d_pt_mult; [apply h2d|]|].
      + apply (continuity_1d_2d_pt_comp npdf (fun t y => (y - m) / exp t)); [apply continuity_pt_filterlim, npdf_cont|exact Hx].
      + apply continuity_2d_pt_mult; [apply continuity_2d_pt_minus; [now apply continuity_2d_pt_mult|apply continuity_2d_pt_const]|]. exact (inv2d t y).
    - exact Hf.
    - intros t H y. destruct (Hb t H) as (H1 & H2). unfold df. apply (ydom h C c (Rabs m) (exp (s + 1)) B' m (exp t) y); [exact Hc|exact C0|unfold B'; lra|lra|lra|apply Hg|].
      rewrite Rabs_mult, (Rabs_pos_eq (/ exp t)) by lra. pose proof (sq1_2 ((y - m) / exp t)) as S1. pose proof (exp_pos (2 * Rabs ((y - m) / exp t))).
      apply Rle_trans with (2 * exp (2 * Rabs ((y - m) / exp t)) * exp (1 - s)); [|unfold B'; lra]. apply Rmult_le_compat; [apply Rabs_pos|lra|exact S1|lra].
    - intros t Ht'. assert (Hex : exists l, line (f t) l).
      { destruct (line_dom K (f t)) as (l & Hl & _); [|now apply Hf|exists l; exact Hl]. intros y. unfold f. apply cont_mult; [apply cont_mult; [apply Hh|apply ypdf_cont]|apply continuous_const]. }
      destruct Hex as (l & Hl). rewrite <- (gmean_y m t l Hl). exact Hl.
    - exists l. split; [|exact Dl]. pose proof (exp_pos s) as Hs.
      assert (Hcd : forall y, continuous (df s) y). { intros y. unfold df. apply cont_mult; [apply cont_mult; [apply Hh|apply ypdf_cont]|]. apply (ex_derive_continuous (K := R_AbsRing) (V := R_NormedModule)). auto_derive. lra. }
      pose proof (line_affine (df s) l m (exp s) Hs Hcd Hl) as H2. eapply line_ext; [|exact H2]. intros x. cbv beta. unfold df. rewrite std_arg. field. lra.
  Qed.
End Param.

(** The laws of jax.random used by the estimators: weibull_min(scale = sqrt 2, concentration = 2) has density w exp(-w^2/2)
    on w >= 0; double_sided_maxwell(loc = 0, scale = 1) has density x^2 exp(-x^2/2) / sqrt(2 pi); uniform on [0, 1). *)
Definition wpdf (w : R) : R := w * exp (- (w * w) / 2).
Definition E_weibull (g : R -> R) (l : R) : Prop := hline (fun w => g w * wpdf w) l.
Definition E_maxwell (g : R -> R) (l : R) : Prop := line (fun x => g x * (x * x * npdf x)) l.
Definition E_uniform (g : R -> R) (l : R) : Prop := is_RInt (V := R_NormedModule) g 0 1 l.

(** ** Half lines *)
Lemma half_intro f l : (forall x, continuous f x) -> (forall eps, 0 < eps -> exists M, forall b, M < b -> Rabs (RInt f 0 b - l) < eps) -> hline f l.
Proof.
  intros Hf H P (eps & HP). destruct (H eps (cond_pos eps)) as (M & HM). exists (fun a => a = 0) (fun b => M < b).
  - reflexivity.
  - exists M. auto.
  - intros a b -> Hb. exists (RInt f 0 b). split; [apply (RInt_correct (V := R_CompleteNormedModule)), cont_ex, Hf|]. apply HP. apply HM; assumption.
Qed.
Lemma half_elim f l : hline f l -> forall eps, 0 < eps -> exists M, forall b, M < b -> Rabs (RInt f 0 b - l) < eps.
Proof.
  intros H eps He. specialize (H (fun y => Rabs (y - l) < eps)). destruct H as [Q R Hq (Mb & Hr) HH].
  { exists (mkposreal eps He). intros y Hy. exact Hy. }
  exists Mb. intros b Hb. destruct (HH 0 b) as (y & Iy & Hy); [exact Hq|now apply Hr|]. cbn in Iy. rewrite (is_RInt_unique _ _ _ _ Iy). exact Hy.
Qed.
Lemma half_unique f l l' : hline f l -> hline f l' -> l = l'.
Proof. intros H H'. rewrite <- (is_RInt_gen_unique (V := R_CompleteNormedModule) f l H). now apply (is_RInt_gen_unique (V := R_CompleteNormedModule)). Qed.
Lemma half_ext f g l : (forall x, 0 <= x -> f x = g x) -> hline f l -> hline g l.
Proof.
  intros E. apply is_RInt_gen_ext. exists (fun a => a = 0) (fun b => 0 < b); [reflexivity|exists 0; auto|]. intros a b -> Hb x Hx. cbn in Hx. rewrite Rmin_left in Hx by lra. apply E. lra.
Qed.
Lemma half_scal k f l : hline f l -> hline (fun x => k * f x) (k * l).
Proof. intros H. apply (is_RInt_gen_scal (V := R_NormedModule) f k l H). Qed.
Lemma half_plus f g l m : hline f l -> hline g m -> hline (fun x => f x + g x) (l + m).
Proof. intros H H'. apply (is_RInt_gen_plus (V := R_NormedModule) f g l m H H'). Qed.
Lemma half_minus f g l m : hline f l -> hline g m -> hline (fun x => f x - g x) (l - m).
Proof. intros H H'. apply (is_RInt_gen_minus (V := R_NormedModule) f g l m H H'). Qed.
Lemma half_dom K f : (forall x, continuous f x) -> expdom K f -> exists l, hline f l.
Proof.
  intros Hf HK. pose proof (expdom_nonneg K f HK) as K0.
  assert (Hc : ex_finite_lim_seq (fun n => RInt f 0 (INR n))).
  { destruct (line_dom K f Hf HK) as (l & _ & Hl). apply ex_lim_seq_cauchy_corr. intros eps. destruct (exp_tail (eps / (K + 1))) as (M & HM0 & HM); [apply Rdiv_lt_0_compat; [apply cond_pos|lra]|].
    destruct (nfloor_ex M) as (N & HN); [lra|]. exists (S N).
    assert (Hcase : forall n m, (S N <= n)%nat -> (n <= m)%nat -> Rabs (RInt f 0 (INR m) - RInt f 0 (INR n)) < eps).
    { intros n m Hn Hm. rewrite <- (chasles f 0 (INR n) (INR m) Hf). rewrite cancel_l.
      assert (Hn' : M <= INR n) by (apply le_INR in Hn; rewrite S_INR in Hn; lra). assert (Hm' : INR n <= INR m) by now apply le_INR.
      eapply Rle_lt_trans; [apply (dom_right K); [exact Hf|exact HK|lra]|]. specialize (HM (INR n) Hn'). pose proof (exp_pos (- INR m)).
      apply Rle_lt_trans with (K * exp (- INR n)); [nra|]. apply Rle_lt_trans with (K * (eps / (K + 1))); [nra|]. destruct eps as [e He]; cbn in *. apply Rmult_lt_reg_r with (K + 1); [lra|]. replace (K * (e / (K + 1)) * (K + 1)) with (K * e) by (field; lra). nra. }
    intros n m Hn Hm. destruct (Nat.le_ge_cases n m) as [L|L]; [rewrite Rabs_minus_sym|]; now apply Hcase. }
  destruct Hc as (lr & Hlr). exists lr.
  assert (HB : forall b, 0 <= b -> Rabs (RInt f 0 b - lr) <= K * exp (- b)).
  { intros b Hb. apply (is_lim_seq_le_loc (fun n => Rabs (RInt f 0 b - RInt f 0 (INR n))) (fun _ => K * exp (- b)) (Finite (Rabs (RInt f 0 b - lr))) (Finite (K * exp (- b)))).
    - destruct (nfloor_ex b Hb) as (N & HN). exists (S N). intros n Hn. apply le_INR in Hn. rewrite S_INR in Hn. rewrite Rabs_minus_sym, <- (chasles f 0 b (INR n) Hf). rewrite cancel_l.
      eapply Rle_trans; [apply (dom_right K); [exact Hf|exact HK|lra]|]. pose proof (exp_pos (- INR n)). nra.
    - apply (is_lim_seq_abs _ (Finite (RInt f 0 b - lr))). apply is_lim_seq_minus'; [apply is_lim_seq_const|exact Hlr].
    - apply is_lim_seq_const. }
  apply half_intro; [exact Hf|]. intros eps He. destruct (exp_tail (eps / (K + 1))) as (M & HM0 & HM); [apply Rdiv_lt_0_compat; lra|]. exists M. intros b Hb. eapply Rle_lt_trans; [apply HB; lra|]. specialize (HM b ltac:(lra)).
  apply Rle_lt_trans with (K * (eps / (K + 1))); [nra|]. apply Rmult_lt_reg_r with (K + 1); [lra|]. replace (K * (eps / (K + 1)) * (K + 1)) with (K * eps) by (field; lra). nra.
Qed.
Lemma half_line f a b : (forall x, continuous f x) -> hline f a -> hline (fun x => f (- x)) b -> line f (a + b).
Proof.
  intros Hf Ha Hb. apply line_intro; [exact Hf|]. intros eps He. destruct (half_elim _ _ Ha (eps / 2) ltac:(lra)) as (M1 & H1). destruct (half_elim _ _ Hb (eps / 2) ltac:(lra)) as (M2 & H2).
  exists (Rmax M1 M2). intros u v Hu Hv. pose proof (Rmax_l M1 M2). pose proof (Rmax_r M1 M2). specialize (H1 v ltac:(lra)). specialize (H2 (- u) ltac:(lra)).
  assert (E : RInt (fun x => f (- x)) 0 (- u) = RInt f u 0).
  { assert (I1 : is_RInt (fun y => opp (f (- y))) (- u) 0 (RInt f u 0)). { assert (I0 : is_RInt f (- - u) (- 0) (RInt f u 0)) by (rewrite Ropp_involutive, Ropp_0; apply (RInt_correct (V := R_CompleteNormedModule)), cont_ex, Hf). exact (is_RInt_comp_opp (V := R_NormedModule) f (- u) 0 _ I0). }
    apply is_RInt_unique. apply (is_RInt_swap (V := R_NormedModule)) in I1. apply (is_RInt_opp (V := R_NormedModule)) in I1. rewrite opp_opp in I1. apply (is_RInt_ext (fun y => opp (opp (f (- y))))); [intros x _; apply opp_opp|exact I1]. }
  rewrite E in H2. rewrite <- (chasles f u 0 v Hf). replace (RInt f u 0 + RInt f 0 v - (a + b)) with ((RInt f u 0 - b) + (RInt f 0 v - a)) by ring. eapply Rle_lt_trans; [apply Rabs_triang|]. lra.
Qed.

(** ** The Gaussian integral *)
Definition gexp (x : R) : R := exp (- (x * x) / 2).
Lemma gexp_cont x : continuous gexp x.
Proof. apply (ex_derive_continuous (K := R_AbsRing) (V := R_NormedModule)). unfold gexp. auto_derive. exact I. Qed.
Lemma gexp_pos x : 0 < gexp x. Proof. apply exp_pos. Qed.
Lemma gexp_dom : expdom (exp (1 / 2)) gexp.
Proof.
  intros x. rewrite Rabs_pos_eq by (left; apply gexp_pos). unfold gexp. rewrite <- exp_plus. apply exp_mono. assert (E : x * x = Rabs x * Rabs x) by (unfold Rabs; destruct (Rcase_abs x); ring). rewrite E. assert (0 <= (Rabs x - 1) * (Rabs x - 1)) by apply Rle_0_sqr. lra.
Qed.
Definition gint (t : R) : R := RInt gexp 0 t.
Lemma gint_derive t : is_derive gint t (gexp t).
Proof. apply (is_derive_RInt (V := R_CompleteNormedModule) gexp gint 0 t); [|apply gexp_cont]. exists (mkposreal 1 Rlt_0_1). intros y _. apply (RInt_correct (V := R_CompleteNormedModule)), cont_ex, gexp_cont. Qed.
Definition bker (t x : R) : R := exp (- (t * t) * (1 + x * x) / 2) / (1 + x * x).
Definition bint (t : R) : R := RInt (bker t) 0 1.
Lemma bker_cont t x : continuous (bker t) x.
Proof. apply (ex_derive_continuous (K := R_AbsRing) (V := R_NormedModule)). unfold bker. auto_derive. nra. Qed.
Lemma bker_derive t x : is_derive (fun t => bker t x) t (- t * exp (- (t * t) * (1 + x * x) / 2)).
Proof. unfold bker, Rdiv. auto_derive; [nra|]. field. nra. Qed.
Lemma bint_derive t : is_derive bint t (- (gexp t * gint t)).
Proof.
  assert (E : RInt (fun x => Derive (fun u => bker u x) t) 0 1 = - (gexp t * gint t)).
  { assert (E1 : RInt (fun x => Derive (fun u => bker u x) t) 0 1 = RInt (fun x => - gexp t * (t * gexp (t * x + 0))) 0 1).
    { apply RInt_ext. intros x _. etransitivity; [apply is_derive_unique, (bker_derive t x)|]. unfold gexp. replace (- (t * t) * (1 + x * x) / 2) with (- (t * t) / 2 + - ((t * x + 0) * (t * x + 0)) / 2) by field. rewrite exp_plus. match goal with |- ?u = ?v => change (@eq R u v) end. ring. }
    rewrite E1. apply is_RInt_unique. replace (- (gexp t * gint t)) with (scal (- gexp t) (gint t)) by (unfold scal; cbn; unfold mult; cbn; ring).
    apply (is_RInt_scal (V := R_NormedModule) (fun x => t * gexp (t * x + 0))). 
    apply (is_RInt_comp_lin (V := R_NormedModule) gexp t 0 0 1). rewrite Rmult_0_r, Rmult_1_r, !Rplus_0_r. apply (RInt_correct (V := R_CompleteNormedModule)), cont_ex, gexp_cont. }
  rewrite <- E. apply (is_derive_RInt_param bker 0 1 t).
  - apply filter_forall. intros u x _. eexists. apply bker_derive.
  - intros x _. apply (continuity_2d_pt_ext (fun u v => - u * exp (- (u * u) * (1 + v * v) / 2))); [intros u v; symmetry; apply is_derive_unique, bker_derive|].
    apply continuity_2d_pt_mult; [apply continuity_2d_pt_opp, continuity_2d_pt_id1|].
    refine (continuity_1d_2d_pt_comp exp (fun u v => - (u * u) * (1 + v * v) / 2) t x _ _); [apply derivable_continuous_pt, derivable_pt_exp|].
    apply continuity_2d_pt_mult; [|apply continuity_2d_pt_const]. apply continuity_2d_pt_mult; [apply continuity_2d_pt_opp, continuity_2d_pt_mult; apply continuity_2d_pt_id1|]. apply continuity_2d_pt_plus; [apply continuity_2d_pt_const|]. apply continuity_2d_pt_mult; apply continuity_2d_pt_id2.
  - apply filter_forall. intros u. apply cont_ex, bker_cont.
Qed.
Lemma bint_0 : bint 0 = PI / 4.
Proof.
  unfold bint. apply is_RInt_unique. replace (PI / 4) with (minus (atan 1) (atan 0)) by (rewrite atan_1, atan_0; unfold minus, plus, opp; cbn; ring).
  apply (is_RInt_derive (V := R_CompleteNormedModule) atan (bker 0)); intros x _; [|apply bker_cont].
  unfold bker. replace (exp (- (0 * 0) * (1 + x * x) / 2) / (1 + x * x)) with (/ (1 + x²)); [apply is_derive_atan|]. replace (- (0 * 0) * (1 + x * x) / 2) with 0 by field. rewrite exp_0. unfold Rsqr. field. nra.
Qed.
Lemma gint_const t : gint t * gint t + 2 * bint t = PI / 2.
Proof.
  assert (D : forall t, is_derive (fun t => gint t * gint t + 2 * bint t) t 0).
  { intros u. evar_last. - apply (is_derive_plus (K := R_AbsRing) (V := R_NormedModule) (fun t => gint t * gint t) (fun t => 2 * bint t)); [apply (is_derive_mult gint gint); [apply gint_derive|apply gint_derive|intros; apply Rmult_comm]|apply is_derive_scal, bint_derive].
    - unfold plus, mult; cbn. ring. }
  assert (E : gint t * gint t + 2 * bint t = gint 0 * gint 0 + 2 * bint 0).
  { destruct (MVT_gen (fun t => gint t * gint t + 2 * bint t) 0 t (fun _ => 0)) as (c & _ & E); [intros; apply D|intros x _; apply continuity_pt_filterlim, (derive_cont (fun t => gint t * gint t + 2 * bint t) x 0 (D x))|]. cbv beta in E. lra. }
  rewrite E, bint_0. unfold gint. rewrite (RInt_point (V := R_CompleteNormedModule)). unfold zero; cbn. field.
Qed.
Lemma bint_bound t : 0 <= bint t <= gexp t.
Proof.
  split.
  - apply RInt_ge_0; [lra|apply cont_ex, bker_cont|]. intros x _. unfold bker. left. apply Rdiv_lt_0_compat; [apply exp_pos|nra].
  - replace (gexp t) with (RInt (fun _ => gexp t) 0 1) by (rewrite RInt_const; unfold scal; cbn; unfold mult; cbn; ring). apply RInt_le; [lra|apply cont_ex, bker_cont|apply ex_RInt_const|]. intros x Hx. unfold bker, gexp.
    apply Rle_trans with (exp (- (t * t) * (1 + x * x) / 2)); [|apply exp_mono; nra]. pose proof (exp_pos (- (t * t) * (1 + x * x) / 2)). apply Rmult_le_reg_r with (1 + x * x); [nra|]. unfold Rdiv at 1. rewrite Rmult_assoc, Rinv_l by nra. nra.
Qed.
Lemma gexp_half : hline gexp (sqrt (PI / 2)).
Proof.
  destruct (half_dom _ gexp gexp_cont gexp_dom) as (l & Hl). replace (sqrt (PI / 2)) with l; [exact Hl|].
  assert (Hl0 : 0 <= l). { apply Rnot_lt_le. intros H. destruct (half_elim _ _ Hl (- l) ltac:(lra)) as (M & HM). specialize (HM (Rmax M 0 + 1) ltac:(pose proof (Rmax_l M 0); lra)). assert (0 <= RInt gexp 0 (Rmax M 0 + 1)) by (apply RInt_ge_0; [pose proof (Rmax_r M 0); lra|apply cont_ex, gexp_cont|intros; left; apply gexp_pos]). apply Rabs_lt_between in HM. lra. }
  assert (E : l * l = PI / 2).
  { apply Rminus_diag_uniq. apply Rabs_eq_0. apply Rle_antisym; [|apply Rabs_pos]. apply Rnot_lt_le. intros H. set (e := Rabs (l * l - PI / 2)) in *.
    (* for large t, gint t is close to l and bint t to 0 *)
    set (d := Rmin 1 (e / (4 * (2 * l + 1)))). assert (Hd : 0 < d) by (apply Rmin_glb_lt; [lra|apply Rdiv_lt_0_compat; lra]).
    destruct (half_elim _ _ Hl d Hd) as (M & HM). destruct (exp_tail (e / (8 * exp (1 / 2)))) as (M2 & HM0 & HM2); [apply Rdiv_lt_0_compat; [lra|pose proof (exp_pos (1/2)); lra]|].
    set (t := Rmax M M2 + 1). pose proof (Rmax_l M M2). pose proof (Rmax_r M M2). specialize (HM t ltac:(unfold t; lra)). specialize (HM2 t ltac:(unfold t; lra)).
    pose proof (gint_const t) as HG. destruct (bint_bound t) as (B1 & B2). pose proof (gexp_dom t) as Hgd. rewrite (Rabs_pos_eq (gexp t)) in Hgd by (left; apply gexp_pos). rewrite (Rabs_pos_eq t) in Hgd by (unfold t; lra).
    assert (Hb : bint t <= e / 8). { eapply Rle_trans; [exact B2|]. eapply Rle_trans; [exact Hgd|]. pose proof (exp_pos (1 / 2)). apply Rle_trans with (exp (1 / 2) * (e / (8 * exp (1 / 2)))); [apply Rmult_le_compat_l; lra|]. right. field. lra. }
    fold (gint t) in HM. assert (Hg : Rabs (gint t * gint t - l * l) <= e / 4).
    { replace (gint t * gint t - l * l) with ((gint t - l) * ((gint t - l) + 2 * l)) by ring. rewrite Rabs_mult. pose proof (Rmin_l 1 (e / (4 * (2 * l + 1)))). pose proof (Rmin_r 1 (e / (4 * (2 * l + 1)))). fold d in H2, H3.
      apply Rle_trans with (d * (2 * l + 1)). { apply Rmult_le_compat; [apply Rabs_pos|apply Rabs_pos|lra|]. eapply Rle_trans; [apply Rabs_triang|]. rewrite (Rabs_pos_eq (2 * l)) by lra. lra. }
      apply Rle_trans with (e / (4 * (2 * l + 1)) * (2 * l + 1)); [apply Rmult_le_compat_r; lra|]. right. field. lra. }
    assert (e <= e / 4 + 2 * (e / 8)); [|lra]. unfold e at 1. replace (l * l - PI / 2) with (- (gint t * gint t - l * l) + - (2 * bint t)) by lra. eapply Rle_trans; [apply Rabs_triang|]. rewrite !Rabs_Ropp, (Rabs_pos_eq (2 * bint t)) by lra. lra. }
  rewrite <- E. symmetry. now apply sqrt_square.
Qed.
Lemma gexp_line : line gexp (sqrt (2 * PI)).
Proof.
  replace (sqrt (2 * PI)) with (sqrt (PI / 2) + sqrt (PI / 2)).
  - apply half_line; [apply gexp_cont|apply gexp_half|]. apply (half_ext gexp); [|apply gexp_half]. intros x _. unfold gexp. f_equal. field.
  - replace (2 * PI) with (2 * 2 * (PI / 2)) by field. pose proof PI_RGT_0. rewrite sqrt_mult, sqrt_square by lra. ring.
Qed.
(** The total masses. *)
Lemma normal_mass : E_normal (fun _ => 1) 1.
Proof.
  pose proof sqrt2pi_pos. cut (E_normal (fun _ => 1) (/ sqrt (2 * PI) * sqrt (2 * PI))); [now rewrite Rinv_l by lra|]. apply (line_ext (fun x => / sqrt (2 * PI) * gexp x)); [intros x; unfold npdf, gexp; field; lra|]. apply line_scal, gexp_line.
Qed.
Lemma maxwell_mass : E_maxwell (fun _ => 1) 1.
Proof.
  assert (H0 : line (fun x => 1 * npdf x - x * (x * npdf x)) 0).
  { destruct (tame_dom (fun x => x) tame_id) as (K & HK). apply (line_derive K (fun x => x * npdf x)); [| |exact HK].
    - intros x. evar_last; [apply (is_derive_mult (fun x => x) npdf); [apply is_derive_id|apply npdf_derive|intros; apply Rmult_comm]|]. unfold plus, mult, one; cbn. ring.
    - intros x. apply (ex_derive_continuous (K := R_AbsRing) (V := R_NormedModule)). auto_derive. repeat split; eexists; apply npdf_derive. }
  cut (E_maxwell (fun _ => 1) (1 - 0)); [now rewrite Rminus_0_r|]. eapply line_ext; [|apply line_minus; [apply normal_mass|exact H0]]. intros x. cbv beta. ring.
Qed.
Lemma wpdf_half : hline wpdf 1.
Proof.
  assert (Hc : forall x, continuous wpdf x) by (intros x; apply (ex_derive_continuous (K := R_AbsRing) (V := R_NormedModule)); unfold wpdf; auto_derive; exact I).
  apply half_intro; [exact Hc|]. intros eps He. destruct (exp_tail (eps / exp (1 / 2))) as (M & HM0 & HM); [apply Rdiv_lt_0_compat; [lra|apply exp_pos]|]. exists M. intros c Hb.
  assert (E : RInt wpdf 0 c = - gexp c - - gexp 0). { apply is_RInt_unique. apply (is_RInt_derive (V := R_CompleteNormedModule) (fun x => - gexp x) wpdf); [|intros; apply Hc]. intros x _. unfold gexp, wpdf, Rdiv. auto_derive; [exact I|]. field. }
  rewrite E. assert (E0 : gexp 0 = 1) by (unfold gexp; replace (- (0 * 0) / 2) with 0 by field; apply exp_0). rewrite E0. replace (- gexp c - - (1) - 1) with (- gexp c) by ring. rewrite Rabs_Ropp. eapply Rle_lt_trans; [apply gexp_dom|]. specialize (HM c ltac:(lra)). rewrite (Rabs_pos_eq c) by lra. pose proof (exp_pos (1 / 2)).
  apply Rlt_le_trans with (exp (1 / 2) * (eps / exp (1 / 2))); [apply Rmult_lt_compat_l; lra|]. right. field. lra.
Qed.
Lemma weibull_mass : E_weibull (fun _ => 1) 1.
Proof. unfold E_weibull. apply (half_ext wpdf); [intros; ring|apply wpdf_half]. Qed.
Lemma uniform_mass : E_uniform (fun _ => 1) 1.
Proof. unfold E_uniform. assert (H := is_RInt_const (V := R_NormedModule) 0 1 1). unfold scal in H; cbn in H; unfold mult in H; cbn in H. now rewrite Rminus_0_r, Rmult_1_r in H. Qed.

Lemma E_normal_ext g g' l : (forall x, g x = g' x) -> E_normal g l -> E_normal g' l.
Proof. intros E. apply line_ext. intros x. now rewrite E. Qed.
Lemma E_normal_lin g g' l l' a b : E_normal g l -> E_normal g' l' -> E_normal (fun x => a * g x + b * g' x) (a * l + b * l').
Proof. intros H H'. eapply line_ext; [|apply line_plus; [apply line_scal, H|apply line_scal, H']]. intros x. cbv beta. ring. Qed.
Lemma E_normal_const k : E_normal (fun _ => k) k.
Proof. pose proof (E_normal_lin _ _ _ _ k 0 normal_mass normal_mass) as H. assert (E : k * 1 + 0 * 1 = k) by ring. refine (eq_rect _ (E_normal _) (E_normal_ext _ _ _ _ H) _ E). intros; cbv beta; exact E. Qed.
Lemma E_maxwell_lin g g' l l' a b : E_maxwell g l -> E_maxwell g' l' -> E_maxwell (fun x => a * g x + b * g' x) (a * l + b * l').
Proof. intros H H'. eapply line_ext; [|apply line_plus; [apply line_scal, H|apply line_scal, H']]. intros x. cbv beta. ring. Qed.
Lemma E_maxwell_ext g g' l : (forall x, g x = g' x) -> E_maxwell g l -> E_maxwell g' l.
Proof. intros E. apply line_ext. intros x. now rewrite E. Qed.
Lemma E_maxwell_const k : E_maxwell (fun _ => k) k.
Proof. pose proof (E_maxwell_lin _ _ _ _ k 0 maxwell_mass maxwell_mass) as H. assert (E : k * 1 + 0 * 1 = k) by ring. refine (eq_rect _ (E_maxwell _) (E_maxwell_ext _ _ _ _ H) _ E). intros; cbv beta; exact E. Qed.
Lemma E_weibull_lin g g' l l' a b : E_weibull g l -> E_weibull g' l' -> E_weibull (fun x => a * g x + b * g' x) (a * l + b * l').
Proof. intros H H'. eapply half_ext; [|apply half_plus; [apply half_scal, H|apply half_scal, H']]. intros x _. cbv beta. ring. Qed.
Lemma E_weibull_ext g g' l : (forall x, 0 <= x -> g x = g' x) -> E_weibull g l -> E_weibull g' l.
Proof. intros E. apply half_ext. intros x Hx. now rewrite E. Qed.
Lemma E_weibull_const k : E_weibull (fun _ => k) k.
Proof. pose proof (E_weibull_lin _ _ _ _ k 0 weibull_mass weibull_mass) as H. assert (E : k * 1 + 0 * 1 = k) by ring. refine (eq_rect _ (E_weibull _) (E_weibull_ext _ _ _ _ H) _ E). intros; cbv beta; exact E. Qed.

Section Est.
  Variable h : R -> R.
  Hypotheses (Hh : forall x, continuous h x) (Ht : tame h).
  Variables m s : R.
  Notation sg := (exp s).

  (** *** pathwise *)
  Lemma stein_m (h' : R -> R) dm : (forall x, is_derive h x (h' x)) -> (forall x, continuous h' x) -> tame h' ->
    E_normal (fun x => h (m + sg * x) * (x / sg)) dm -> E_normal (fun x => h' (m + sg * x)) dm.
  Proof.
    intros Hd Hc Ht' H. pose proof (exp_pos s) as Hs. destruct (tame_dom _ (tame_affine h m sg Ht)) as (K & HK).
    assert (H0 : line (fun x => sg * h' (m + sg * x) * npdf x + h (m + sg * x) * (- x * npdf x)) 0).
    { apply (line_derive K (fun x => h (m + sg * x) * npdf x)); [| |exact HK].
      - intros x. evar_last.
        + apply (is_derive_mult (fun x => h (m + sg * x)) npdf x); [apply (is_derive_comp h (fun x => m + sg * x) x); [apply Hd|auto_derive; [exact I|reflexivity]]|apply npdf_derive|intros; apply Rmult_comm].
        + unfold plus, mult, scal; cbn. unfold mult; cbn. ring.
      - intros x. apply (continuous_plus (V := R_NormedModule)); apply cont_mult; [apply cont_mult; [apply continuous_const|apply cont_affine, Hc]|apply npdf_cont|apply cont_affine, Hh|].
        apply cont_mult; [apply (continuous_opp (V := R_NormedModule)), continuous_id|apply npdf_cont]. }
    replace dm with (/ sg * 0 + dm) by ring. eapply line_ext; [|apply line_plus; [apply line_scal, H0|exact H]]. intros x. cbv beta. field. lra.
  Qed.
  Lemma stein_s (h' : R -> R) ds : (forall x, is_derive h x (h' x)) -> (forall x, continuous h' x) -> tame h' ->
    E_normal (fun x => h (m + sg * x) * (x * x - 1)) ds -> E_normal (fun x => h' (m + sg * x) * (sg * x)) ds.
  Proof.
    intros Hd Hc Ht' H. pose proof (exp_pos s) as Hs. destruct (tame_dom _ (tame_mult _ _ tame_id (tame_affine h m sg Ht))) as (K & HK).
    assert (H0 : line (fun x => (1 * h (m + sg * x) + x * (sg * h' (m + sg * x))) * npdf x + (x * h (m + sg * x)) * (- x * npdf x)) 0).
    { apply (line_derive K (fun x => x * h (m + sg * x) * npdf x)); [| |exact HK].
      - intros x. evar_last.
        + apply (is_derive_mult (fun x => x * h (m + sg * x)) npdf x); [apply (is_derive_mult (fun x => x) (fun x => h (m + sg * x))); [apply is_derive_id|apply (is_derive_comp h (fun x => m + sg * x) x); [apply Hd|auto_derive; [exact I|reflexivity]]|intros; apply Rmult_comm]|apply npdf_derive|intros; apply Rmult_comm].
        + unfold plus, mult, scal, one; cbn. unfold mult; cbn. ring.
      - intros x. apply (continuous_plus (V := R_NormedModule)); apply cont_mult; [|apply npdf_cont| |].
        + apply (continuous_plus (V := R_NormedModule)); apply cont_mult; [apply continuous_const|apply cont_affine, Hh|apply continuous_id|apply cont_mult; [apply continuous_const|apply cont_affine, Hc]].
        + apply cont_mult; [apply continuous_id|apply cont_affine, Hh].
        + apply cont_mult; [apply (continuous_opp (V := R_NormedModule)), continuous_id|apply npdf_cont]. }
    replace ds with (0 + ds) by ring. eapply line_ext; [|apply line_plus; [exact H0|exact H]]. intros x. cbv beta. ring.
  Qed.

  (** *** measure-valued, mean *)
  Lemma wpdf_npdf x : wpdf x = sqrt (2 * PI) * (x * npdf x).
  Proof. unfold wpdf, npdf. field. pose proof sqrt2pi_pos. lra. Qed.
  Lemma E_weibull_ex g : tame g -> (forall x, continuous g x) -> exists l, E_weibull g l.
  Proof.
    intros Htg Hg. destruct (tame_dom _ (tame_mult _ _ Htg tame_id)) as (K & HK).
    destruct (half_dom K (fun x => g x * x * npdf x)) as (l & Hl); [intros x; apply cont_mult; [apply cont_mult; [apply Hg|apply continuous_id]|apply npdf_cont]|exact HK|].
    exists (sqrt (2 * PI) * l). eapply half_ext; [|apply half_scal, Hl]. intros x _. cbv beta. rewrite wpdf_npdf. ring.
  Qed.
  Lemma mv_m dm : E_normal (fun x => h (m + sg * x) * (x / sg)) dm ->
    exists a b, E_weibull (fun w => h (m + sg * w)) a /\ E_weibull (fun w => h (m - sg * w)) b /\ (a - b) / (sqrt (2 * PI) * sg) = dm.
  Proof.
    intros H. pose proof (exp_pos s) as Hs. pose proof sqrt2pi_pos as Hp.
    destruct (E_weibull_ex _ (tame_affine h m sg Ht) (cont_affine h m sg Hh)) as (a & Ha).
    assert (Hm : forall x, h (m - sg * x) = h (m + - sg * x)) by (intros; f_equal; ring).
    destruct (E_weibull_ex _ (tame_affine h m (- sg) Ht) (cont_affine h m (- sg) Hh)) as (b & Hb). apply (E_weibull_ext _ (fun w => h (m - sg * w))) in Hb; [|intros; now rewrite Hm].
    exists a, b. split; [exact Ha|]. split; [exact Hb|].
    assert (HL : line (fun x => h (m + sg * x) * wpdf x) (a + - b)).
    { apply half_line.
      - intros x. apply cont_mult; [apply cont_affine, Hh|]. apply (ex_derive_continuous (K := R_AbsRing) (V := R_NormedModule)). unfold wpdf. auto_derive. exact I.
      - exact Ha.
      - eapply half_ext; [|replace (- b) with (-1 * b) by ring; apply half_scal, Hb]. intros x _. cbv beta. replace (m + sg * - x) with (m - sg * x) by ring. unfold wpdf. replace (- (- x * - x) / 2) with (- (x * x) / 2) by field. ring. }
    assert (H2 : line (fun x => h (m + sg * x) * wpdf x) (sqrt (2 * PI) * sg * dm)). { eapply line_ext; [|apply line_scal, H]. intros x. cbv beta. rewrite wpdf_npdf. field. lra. }
    rewrite <- (Rmult_1_l dm). apply (Rmult_eq_reg_l (sqrt (2 * PI) * sg)); [|nra]. rewrite Rmult_1_l. rewrite <- (line_unique _ _ _ HL H2). field. lra.
  Qed.

  (** *** measure-valued, scale *)
  Lemma mv_s ds : E_normal (fun x => h (m + sg * x) * (x * x - 1)) ds -> E_maxwell (fun x => h (m + sg * x)) (gmean h m s + ds).
  Proof. intros H. eapply line_ext; [|apply line_plus; [exact (gmean_correct h Hh Ht m s)|exact H]]. intros x. cbv beta. ring. Qed.

  (** the primitive of t |-> h(m + sg t) *)
  Definition prim (y : R) : R := RInt (fun t => h (m + sg * t)) 0 y.
  Lemma prim_derive y : is_derive prim y (h (m + sg * y)).
  Proof. apply (is_derive_RInt (V := R_CompleteNormedModule) (fun t => h (m + sg * t)) prim 0 y); [|apply cont_affine, Hh]. exists (mkposreal 1 Rlt_0_1). intros u _. apply (RInt_correct (V := R_CompleteNormedModule)), cont_ex, cont_affine, Hh. Qed.
  Lemma prim_tame : tame prim.
  Proof.
    destruct (tame_affine h m sg Ht) as (C & c & Hc & HC). pose proof (tame_nonneg _ _ _ HC) as C0. exists C, (c + 1). split; [lra|]. intros y. unfold prim.
    assert (E0 : prim 0 = 0) by (unfold prim; apply (RInt_point (V := R_CompleteNormedModule))).
    destruct (MVT_gen prim 0 y (fun t => h (m + sg * t))) as (u & Hu & E); [intros; apply prim_derive|intros x _; apply continuity_pt_filterlim, (derive_cont prim x _ (prim_derive x))|].
    fold (prim y). rewrite E0, !Rminus_0_r in E. rewrite E, Rabs_mult, Rmult_plus_distr_r, exp_plus, Rmult_1_l, <- Rmult_assoc. apply Rmult_le_compat; [apply Rabs_pos|apply Rabs_pos| |apply abs_le_exp].
    eapply Rle_trans; [apply HC|]. apply Rmult_le_compat_l; [exact C0|]. apply exp_mono. apply Rmult_le_compat_l; [exact Hc|]. 
    destruct (Rle_dec 0 y) as [L|L]; [rewrite Rmin_left, Rmax_right in Hu by lra; rewrite !Rabs_pos_eq by lra; lra|rewrite Rmin_right, Rmax_left in Hu by lra; rewrite !Rabs_left1 by lra; lra].
  Qed.
  Lemma prim_uniform x : exists i, E_uniform (fun u => h (m + sg * (u * x))) i /\ x * i = prim x.
  Proof.
    assert (Hc : forall u, continuous (fun u => h (m + sg * (u * x))) u). { intros u. apply (continuous_comp (fun u => m + sg * (u * x)) h); [|apply Hh]. apply (ex_derive_continuous (K := R_AbsRing) (V := R_NormedModule)). auto_derive. exact I. }
    exists (RInt (fun u => h (m + sg * (u * x))) 0 1). split; [apply (RInt_correct (V := R_CompleteNormedModule)), cont_ex, Hc|].
    assert (I1 : is_RInt (fun u => scal x ((fun t => h (m + sg * t)) (x * u + 0))) 0 1 (prim x)).
    { apply (is_RInt_comp_lin (V := R_NormedModule) (fun t => h (m + sg * t)) x 0 0 1). rewrite Rmult_0_r, Rmult_1_r, !Rplus_0_r. apply (RInt_correct (V := R_CompleteNormedModule)), cont_ex, cont_affine, Hh. }
    assert (I2 : is_RInt (fun u => scal x ((fun t => h (m + sg * t)) (x * u + 0))) 0 1 (x * RInt (fun u => h (m + sg * (u * x))) 0 1)).
    { eapply is_RInt_ext; [|apply (is_RInt_scal (V := R_NormedModule)), (RInt_correct (V := R_CompleteNormedModule)), cont_ex, Hc]. intros u _. cbv beta. f_equal. f_equal. ring. }
    rewrite <- (is_RInt_unique _ _ _ _ I1). symmetry. exact (is_RInt_unique _ _ _ _ I2).
  Qed.
  Lemma mv_coupled (i : R -> R) : (forall x, E_uniform (fun u => h (m + sg * (u * x))) (i x)) -> E_maxwell i (gmean h m s).
  Proof.
    intros Hi. assert (Ei : forall x, x * i x = prim x). { intros x. destruct (prim_uniform x) as (j & Hj & <-). f_equal. rewrite <- (is_RInt_unique _ _ _ _ (Hi x)). exact (is_RInt_unique _ _ _ _ Hj). }
    destruct (tame_dom _ prim_tame) as (K & HK).
    assert (H0 : line (fun x => h (m + sg * x) * npdf x + prim x * (- x * npdf x)) 0).
    { apply (line_derive K (fun x => prim x * npdf x)); [| |exact HK].
      - intros x. evar_last; [apply (is_derive_mult prim npdf x); [apply prim_derive|apply npdf_derive|intros; apply Rmult_comm]|]. unfold plus, mult; cbn. ring.
      - intros x. apply (continuous_plus (V := R_NormedModule)); apply cont_mult; [apply cont_affine, Hh|apply npdf_cont|exact (derive_cont _ _ _ (prim_derive x))|]. apply cont_mult; [apply (continuous_opp (V := R_NormedModule)), continuous_id|apply npdf_cont]. }
    replace (gmean h m s) with (gmean h m s - 0) by ring. eapply line_ext; [|apply line_minus; [exact (gmean_correct h Hh Ht m s)|exact H0]]. intros x. cbv beta. rewrite <- (Ei x). ring.
  Qed.
End Est.
