(** Expectations over independent standard normal draws, and the Gaussian mechanism (used by C81).
    This file is a specification and proof library: it models no code. *)
From Coq Require Import Reals Lra Lia Psatz List.
From Coquelicot Require Import Coquelicot.
From Verif Require Import Spec Norms Gauss.
Import ListNotations.
Open Scope R_scope.

(** ** Specification *)
(** The expectation of g(Z1, ..., Zn), for independent standard normal Z's, is l (integrating one variable after the other). *)
Fixpoint E_normals (n : nat) (g : list R -> R) (l : R) : Prop :=
  match n with
  | 0%nat => g [] = l
  | S n => exists h : R -> R, (forall z, E_normals n (fun zs => g (z :: zs)) (h z)) /\ E_normal h l
  end.
(** The same for T blocks of n draws. *)
Fixpoint E_blocks (n T : nat) (g : list (list R) -> R) (l : R) : Prop :=
  match T with
  | 0%nat => g [] = l
  | S T => exists h : list R -> R, (forall zs, length zs = n -> E_blocks n T (fun w => g (zs :: w)) (h zs)) /\ E_normals n h l
  end.

(** ** Integrals over the line *)
Lemma line_intro' f l : (forall eps, 0 < eps -> exists M, forall a b, a < - M -> M < b -> ex_RInt f a b /\ Rabs (RInt f a b - l) < eps) -> line f l.
Proof.
  intros H P (eps & HP). destruct (H eps (cond_pos eps)) as (M & HM).
  exists (fun a => a < - M) (fun b => M < b).
  - exists (- M). auto.
  - exists M. auto.
  - intros a b Ha Hb. destruct (HM a b Ha Hb) as (Hex & HB). exists (RInt f a b). split; [now apply (RInt_correct (V := R_CompleteNormedModule))|]. apply HP. exact HB.
Qed.
Lemma line_translate f l d : line f l -> line (fun x => f (x - d)) l.
Proof.
  intros H. apply line_intro'. intros eps He. destruct (line_elim f l H eps He) as (M & HM).
  exists (M + Rabs d). intros a b Ha Hb. pose proof (Rle_abs d). pose proof (Rle_abs (- d)) as Hn. rewrite Rabs_Ropp in Hn.
  destruct (HM (a - d) (b - d)) as (Hex & HB); [lra|lra|].
  assert (HI : is_RInt (fun x => f (x - d)) a b (RInt f (a - d) (b - d))).
  { replace (a - d) with (1 * a + - d) by ring. replace (b - d) with (1 * b + - d) by ring.
    apply (is_RInt_ext (fun x => scal 1 (f (1 * x + - d)))); [intros x _; unfold scal; cbn; unfold mult; cbn; rewrite Rmult_1_l; f_equal; ring|].
    apply (is_RInt_comp_lin (V := R_NormedModule) f 1 (- d) a b). replace (1 * a + - d) with (a - d) by ring. replace (1 * b + - d) with (b - d) by ring. now apply (RInt_correct (V := R_CompleteNormedModule)). }
  split; [eexists; exact HI|]. rewrite (is_RInt_unique _ _ _ _ HI). exact HB.
Qed.
Lemma line_mono f g a b : (forall x, f x <= g x) -> line f a -> line g b -> a <= b.
Proof.
  intros H Hf Hg. apply Rnot_lt_le. intros Hlt.
  destruct (line_elim f a Hf ((a - b) / 2)) as (M & HM); [lra|]. destruct (line_elim g b Hg ((a - b) / 2)) as (N & HN); [lra|].
  set (m := Rmax 0 (Rmax M N) + 1). pose proof (Rmax_l 0 (Rmax M N)). pose proof (Rmax_r 0 (Rmax M N)). pose proof (Rmax_l M N). pose proof (Rmax_r M N).
  destruct (HM (- m) m) as (Xf & Bf); [unfold m; lra|unfold m; lra|]. destruct (HN (- m) m) as (Xg & Bg); [unfold m; lra|unfold m; lra|].
  assert (RInt f (- m) m <= RInt g (- m) m) by (apply RInt_le; [unfold m; lra|exact Xf|exact Xg|intros; apply H]).
  apply Rabs_def2 in Bf. apply Rabs_def2 in Bg. lra.
Qed.

(** ** Expectations over one normal *)
Lemma E_normal_mono f g a b : (forall x, f x <= g x) -> E_normal f a -> E_normal g b -> a <= b.
Proof. intros H. apply line_mono. intros x. apply Rmult_le_compat_r; [left; apply npdf_le|apply H]. Qed.
Lemma E_normal_unique f a b : E_normal f a -> E_normal f b -> a = b.
Proof. apply line_unique. Qed.
Lemma E_normal_shift f a d : E_normal f a -> E_normal (fun x => f (x - d) * exp (d * x - d * d / 2)) a.
Proof.
  intros H. apply (line_translate _ _ d) in H. revert H. apply line_ext. intros x. rewrite (Rmult_assoc (f _)). f_equal. unfold npdf, Rdiv. rewrite <- Rmult_assoc, <- exp_plus. f_equal. f_equal. field.
Qed.

(** ** Expectations over n normals *)
Lemma E_normals_ext n : forall g g' l, (forall zs, length zs = n -> g zs = g' zs) -> E_normals n g l -> E_normals n g' l.
Proof.
  induction n as [|n IH]; intros g g' l H; cbn [E_normals]; [intros <-; symmetry; now apply H|]. intros (h & Hh & El). exists h. split; [|exact El].
  intros z. apply (IH (fun zs => g (z :: zs))); [|apply Hh]. intros zs Hz. apply H. cbn. now rewrite Hz.
Qed.
Lemma E_normals_unique n : forall g a b, E_normals n g a -> E_normals n g b -> a = b.
Proof.
  induction n as [|n IH]; intros g a b; cbn [E_normals]; [congruence|]. intros (h & Hh & Ea) (h' & Hh' & Eb).
  apply (E_normal_unique h); [exact Ea|]. apply (E_normal_ext h'); [|exact Eb]. intros z. exact (IH _ _ _ (Hh' z) (Hh z)).
Qed.
Lemma E_normals_lin n : forall g g' l l' a b, E_normals n g l -> E_normals n g' l' -> E_normals n (fun zs => a * g zs + b * g' zs) (a * l + b * l').
Proof.
  induction n as [|n IH]; intros g g' l l' a b; cbn [E_normals]; [now intros -> ->|]. intros (h & Hh & El) (h' & Hh' & El').
  exists (fun z => a * h z + b * h' z). split; [intros z; now apply IH|]. now apply E_normal_lin.
Qed.
Lemma E_normals_const n k : E_normals n (fun _ => k) k.
Proof. induction n as [|n IH]; cbn [E_normals]; [reflexivity|]. exists (fun _ => k). split; [intros; exact IH|apply E_normal_const]. Qed.
Lemma E_normals_scal n g l a : E_normals n g l -> E_normals n (fun zs => a * g zs) (a * l).
Proof.
  intros H. pose proof (E_normals_lin n _ _ _ _ a 0 H (E_normals_const n 0)) as H'. replace (a * l + 0 * 0) with (a * l) in H' by ring. revert H'. apply E_normals_ext. intros; cbv beta; ring.
Qed.
Lemma E_normals_mono n : forall g g' l l', (forall zs, length zs = n -> g zs <= g' zs) -> E_normals n g l -> E_normals n g' l' -> l <= l'.
Proof.
  induction n as [|n IH]; intros g g' l l' H; cbn [E_normals]; [intros <- <-; now apply H|]. intros (h & Hh & El) (h' & Hh' & El').
  revert El El'. apply E_normal_mono. intros z. apply (IH (fun zs => g (z :: zs)) (fun zs => g' (z :: zs))); [|apply Hh|apply Hh']. intros zs Hz. apply H. cbn. now rewrite Hz.
Qed.

(** Vectors *)
Definition vsubr (a b : list R) : list R := map (fun p => fst p - snd p) (combine a b).

Lemma E_normals_shift n : forall g l v, length v = n -> E_normals n g l -> E_normals n (fun zs => g (vsubr zs v) * exp (dot v zs - sumsq v / 2)) l.
Proof.
  induction n as [|n IH]; intros g l v Hv; cbn [E_normals].
  - destruct v; [|discriminate]. intros <-. change (vsubr [] []) with (@nil R). change (dot [] []) with 0. change (sumsq []) with 0. replace (0 - 0 / 2) with 0 by field. rewrite exp_0. ring.
  - destruct v as [|d v]; [discriminate|]. injection Hv as Hv. intros (h & Hh & El).
    exists (fun z => h (z - d) * exp (d * z - d * d / 2)). split; [|now apply E_normal_shift]. intros z.
    pose proof (E_normals_scal n _ _ (exp (d * z - d * d / 2)) (IH _ _ v Hv (Hh (z - d)))) as H. rewrite (Rmult_comm _ (h (z - d))) in H. revert H. apply E_normals_ext. intros zs _.
    change (vsubr (z :: zs) (d :: v)) with ((z - d) :: vsubr zs v). rewrite dot_cons, sumsq_cons.
    replace (d * z + dot v zs - (d * d + sumsq v) / 2) with ((d * z - d * d / 2) + (dot v zs - sumsq v / 2)) by field. rewrite exp_plus. ring.
Qed.

(** ** Expectations over T blocks *)
Lemma E_blocks_ext n T : forall g g' l, (forall w, length w = T -> Forall (fun zs => length zs = n) w -> g w = g' w) -> E_blocks n T g l -> E_blocks n T g' l.
Proof.
  induction T as [|T IH]; intros g g' l H; cbn [E_blocks]; [intros <-; symmetry; now apply H|]. intros (h & Hh & El). exists h. split; [|exact El].
  intros z Hz. apply (IH (fun w => g (z :: w))); [|now apply Hh]. intros w Hw HF. apply H; [cbn; now rewrite Hw|now constructor].
Qed.
Lemma E_blocks_lin n T : forall g g' l l' a b, E_blocks n T g l -> E_blocks n T g' l' -> E_blocks n T (fun w => a * g w + b * g' w) (a * l + b * l').
Proof.
  induction T as [|T IH]; intros g g' l l' a b; cbn [E_blocks]; [now intros -> ->|]. intros (h & Hh & El) (h' & Hh' & El').
  exists (fun z => a * h z + b * h' z). split; [intros z Hz; apply IH; auto|]. now apply E_normals_lin.
Qed.
Lemma E_blocks_const n T k : E_blocks n T (fun _ => k) k.
Proof. induction T as [|T IH]; cbn [E_blocks]; [reflexivity|]. exists (fun _ => k). split; [intros; exact IH|apply E_normals_const]. Qed.
Lemma E_blocks_scal n T g l a : E_blocks n T g l -> E_blocks n T (fun w => a * g w) (a * l).
Proof.
  intros H. pose proof (E_blocks_lin n T _ _ _ _ a 0 H (E_blocks_const n T 0)) as H'. replace (a * l + 0 * 0) with (a * l) in H' by ring. revert H'. apply E_blocks_ext. intros; cbv beta; ring.
Qed.
Lemma E_blocks_mono n T : forall g g' l l', (forall w, length w = T -> Forall (fun zs => length zs = n) w -> g w <= g' w) -> E_blocks n T g l -> E_blocks n T g' l' -> l <= l'.
Proof.
  induction T as [|T IH]; intros g g' l l' H; cbn [E_blocks]; [intros <- <-; now apply H|]. intros (h & Hh & El) (h' & Hh' & El').
  revert El El'. apply E_normals_mono. intros z Hz. apply (IH (fun w => g (z :: w)) (fun w => g' (z :: w))); [|now apply Hh|now apply Hh']. intros w Hw HF. apply H; [cbn; now rewrite Hw|now constructor].
Qed.

(** Shift every block by a vector that may depend on the blocks before it. *)
Fixpoint shift_blocks (d : list (list R) -> list R) (w : list (list R)) : list (list R) :=
  match w with [] => [] | z :: w => vsubr z (d []) :: shift_blocks (fun p => d (z :: p)) w end.
(** The log of the likelihood ratio of the shifted draws, and the squared size of the shift_blocks. *)
Fixpoint loglik (d : list (list R) -> list R) (w : list (list R)) : R :=
  match w with [] => 0 | z :: w => dot (d []) z - sumsq (d []) / 2 + loglik (fun p => d (z :: p)) w end.
Fixpoint energy (d : list (list R) -> list R) (w : list (list R)) : R :=
  match w with [] => 0 | z :: w => sumsq (d []) + energy (fun p => d (z :: p)) w end.

Lemma E_blocks_shift n T : forall g l d, (forall p, Forall (fun zs => length zs = n) p -> length (d p) = n) -> E_blocks n T g l -> E_blocks n T (fun w => g (shift_blocks d w) * exp (loglik d w)) l.
Proof.
  induction T as [|T IH]; intros g l d Hd; cbn [E_blocks].
  - intros <-. cbn. rewrite exp_0. ring.
  - intros (h & Hh & El). pose proof (Hd [] (Forall_nil _)) as H0.
    exists (fun z => h (vsubr z (d [])) * exp (dot (d []) z - sumsq (d []) / 2)). split; [|now apply E_normals_shift].
    intros z Hz. assert (Hs : length (vsubr z (d [])) = n) by (unfold vsubr; rewrite map_length, combine_length, Hz, H0; lia).
    pose proof (E_blocks_scal n T _ _ (exp (dot (d []) z - sumsq (d []) / 2)) (IH _ _ (fun p => d (z :: p)) (fun p Hp => Hd _ (Forall_cons _ Hz Hp)) (Hh _ Hs))) as H. rewrite (Rmult_comm _ (h (vsubr z (d [])))) in H. revert H. apply E_blocks_ext. intros w _ _.
    cbn [shift_blocks loglik]. rewrite exp_plus. ring.
Qed.

Lemma dot_scal a v z : dot (map (Rmult a) v) z = a * dot v z.
Proof. revert z. induction v as [|x v IH]; intros [|y z]; [change (0 = a * 0); ring..|]. cbn [map]. rewrite !dot_cons, IH. ring. Qed.
Lemma loglik_scal a : forall w d, loglik (fun p => map (Rmult a) (d p)) w = a * loglik d w - (a * a - a) * energy d w / 2.
Proof.
  induction w as [|z w IH]; intros d; cbn [loglik energy]; [field|]. rewrite (IH (fun p => d (z :: p))), dot_scal, sumsq_scal. field.
Qed.
Lemma energy_bound n K d : (forall p, Forall (fun zs => length zs = n) p -> sumsq (d p) <= K) -> forall w, Forall (fun zs => length zs = n) w -> energy d w <= INR (length w) * K.
Proof.
  intros Hd w Hw. revert d Hd. induction Hw as [|z w Hz Hw IH]; intros d Hd; cbn [energy length]; [cbn; lra|].
  rewrite S_INR. pose proof (Hd [] (Forall_nil _)). pose proof (IH (fun p => d (z :: p)) (fun p Hp => Hd _ (Forall_cons _ Hz Hp))). lra.
Qed.

Lemma ratio_split x L eps al : 0 <= x <= 1 -> 1 < al -> x * exp L <= exp eps * x + exp (- ((al - 1) * eps)) * exp (al * L).
Proof.
  intros Hx Ha. rewrite <- exp_plus. pose proof (exp_pos (- ((al - 1) * eps) + al * L)). pose proof (exp_pos L). destruct (Rle_dec L eps) as [Hl|Hl].
  - assert (exp L <= exp eps) by now apply exp_mono. nra.
  - assert (exp L <= exp (- ((al - 1) * eps) + al * L)) by (apply exp_mono; nra). pose proof (exp_pos eps). nra.
Qed.

(** The Gaussian mechanism, T-fold and adaptive: if every block is shifted by a vector of squared norm at most K, that may depend on the earlier
    draws, the expectation of any test function into [0,1] under the shifted draws is at most e^eps times that under the draws, plus a remainder. *)
Lemma gauss_mechanism n T g a b d K eps al : (forall p, Forall (fun zs => length zs = n) p -> length (d p) = n /\ sumsq (d p) <= K) ->
  (forall w, length w = T -> Forall (fun zs => length zs = n) w -> 0 <= g w <= 1) -> 1 < al ->
  E_blocks n T g b -> E_blocks n T (fun w => g w * exp (loglik d w)) a -> a <= exp eps * b + exp ((al - 1) * (al * INR T * K / 2 - eps)).
Proof.
  intros Hd Hg Ha Eb Ea.
  assert (E1 : E_blocks n T (fun w => exp (loglik (fun p => map (Rmult al) (d p)) w)) 1).
  { assert (H := E_blocks_shift n T (fun _ => 1) 1 (fun p => map (Rmult al) (d p)) (fun p Hp => eq_trans (map_length _ _) (proj1 (Hd p Hp))) (E_blocks_const n T 1)).
    revert H. apply E_blocks_ext. intros; cbv beta; ring. }
  pose proof (E_blocks_lin n T _ _ _ _ (exp eps) (exp ((al - 1) * (al * INR T * K / 2 - eps))) Eb E1) as E2. rewrite Rmult_1_r in E2.
  revert Ea E2. apply E_blocks_mono. intros w Hw HF. eapply Rle_trans; [apply (ratio_split _ _ eps al); [now apply Hg|exact Ha]|]. apply Rplus_le_compat_l.
  rewrite <- !exp_plus. apply exp_mono. rewrite loglik_scal. pose proof (energy_bound n K d (fun p Hp => proj2 (Hd p Hp)) w HF) as He. rewrite Hw in He. assert (0 < al * al - al) by nra. assert (0 <= (al * al - al) * (INR T * K - energy d w)) by (apply Rmult_le_pos; lra). nra.
Qed.

(** ** Bounded Lipschitz functions have expectations *)
Definition dist1 (a b : list R) : R := rsum (map Rabs (vsubr a b)).
Fixpoint dist2 (w w' : list (list R)) : R := match w, w' with z :: w, z' :: w' => dist1 z z' + dist2 w w' | _, _ => 0 end.
Fixpoint evn (n : nat) (g : list R -> R) : R :=
  match n with
  | 0%nat => g []
  | S n => RInt_gen (V := R_CompleteNormedModule) (fun z => evn n (fun zs => g (z :: zs)) * npdf z) (Rbar_locally m_infty) (Rbar_locally p_infty)
  end.
Fixpoint evb (n T : nat) (g : list (list R) -> R) : R :=
  match T with 0%nat => g [] | S T => evn n (fun zs => evb n T (fun w => g (zs :: w))) end.

Lemma lip_cont (h : R -> R) L : 0 <= L -> (forall x y, Rabs (h x - h y) <= L * Rabs (x - y)) -> forall x, continuous h x.
Proof.
  intros HL H x P (eps & HP). assert (Hd : 0 < eps / (L + 1)) by (apply Rdiv_lt_0_compat; [apply cond_pos|lra]). exists (mkposreal _ Hd). intros y Hy. apply HP. change (Rabs (y - x) < eps / (L + 1)) in Hy. change (Rabs (h y - h x) < eps).
  eapply Rle_lt_trans; [apply H|]. pose proof (Rabs_pos (y - x)). apply Rle_lt_trans with (L * (eps / (L + 1))); [apply Rmult_le_compat_l; lra|]. destruct eps as [e He]; cbn in *. apply Rmult_lt_reg_r with (L + 1); [lra|]. replace (L * (e / (L + 1)) * (L + 1)) with (L * e) by (field; lra). nra.
Qed.
Lemma bounded_tame h M : (forall x, Rabs (h x) <= M) -> tame h.
Proof. intros H. exists M, 0. split; [lra|]. intros x. rewrite Rmult_0_l, exp_0, Rmult_1_r. apply H. Qed.
Lemma d1_refl a : dist1 a a = 0.
Proof. unfold dist1, vsubr. induction a as [|x a IH]; cbn [combine map fst snd]; [reflexivity|]. rewrite rsum_cons, IH, Rminus_eq_0, Rabs_R0. ring. Qed.
Lemma d2_refl w : dist2 w w = 0.
Proof. induction w as [|z w IH]; cbn [dist2]; [reflexivity|]. rewrite IH, d1_refl. ring. Qed.

Lemma E_normals_abs n g l M : (forall zs, length zs = n -> Rabs (g zs) <= M) -> E_normals n g l -> Rabs l <= M.
Proof.
  intros H E. apply Rabs_le. split.
  - apply (E_normals_mono n (fun _ => - M) g); [|apply E_normals_const|exact E]. intros zs Hz. specialize (H zs Hz). apply Rabs_le_between in H. lra.
  - apply (E_normals_mono n g (fun _ => M)); [|exact E|apply E_normals_const]. intros zs Hz. specialize (H zs Hz). apply Rabs_le_between in H. lra.
Qed.
Lemma E_normals_close n g g' l l' M : (forall zs, length zs = n -> Rabs (g zs - g' zs) <= M) -> E_normals n g l -> E_normals n g' l' -> Rabs (l - l') <= M.
Proof.
  intros H E E'. apply (E_normals_abs n (fun zs => 1 * g zs + -1 * g' zs)).
  - intros zs Hz. replace (1 * g zs + -1 * g' zs) with (g zs - g' zs) by ring. now apply H.
  - replace (l - l') with (1 * l + -1 * l') by ring. now apply E_normals_lin.
Qed.
Lemma E_normals_lip n : forall g L M, 0 <= L -> (forall zs, length zs = n -> Rabs (g zs) <= M) -> (forall zs zs', length zs = n -> length zs' = n -> Rabs (g zs - g zs') <= L * dist1 zs zs') -> E_normals n g (evn n g).
Proof.
  induction n as [|n IH]; intros g L M HL HM HLip; cbn [E_normals evn]; [reflexivity|].
  assert (Hz : forall z, E_normals n (fun zs => g (z :: zs)) (evn n (fun zs => g (z :: zs)))).
  { intros z. apply (IH _ L M HL); [intros; apply HM; cbn; lia|]. intros zs zs' H H'. eapply Rle_trans; [apply HLip; cbn; lia|]. apply Req_le. f_equal. unfold dist1, vsubr. cbn [combine map fst snd]. rewrite rsum_cons, Rminus_eq_0, Rabs_R0. ring. }
  exists (fun z => evn n (fun zs => g (z :: zs))). split; [exact Hz|].
  destruct (E_normal_ex (fun z => evn n (fun zs => g (z :: zs)))) as (l & Hl).
  - apply (bounded_tame _ M). intros z. apply (E_normals_abs n (fun zs => g (z :: zs))); [|apply Hz]. intros; apply HM; cbn; lia.
  - apply (lip_cont _ L HL). intros x y. apply (E_normals_close n (fun zs => g (x :: zs)) (fun zs => g (y :: zs))); [|apply Hz|apply Hz]. intros zs H. eapply Rle_trans; [apply HLip; cbn; lia|]. apply Req_le. f_equal.
    unfold dist1, vsubr. cbn [combine map fst snd]. rewrite rsum_cons. fold (vsubr zs zs) (dist1 zs zs). rewrite d1_refl. ring.
  - unfold E_normal in *. rewrite (is_RInt_gen_unique (V := R_CompleteNormedModule) _ l Hl). exact Hl.
Qed.
Lemma E_blocks_abs n T : forall g l M, (forall w, length w = T -> Forall (fun zs => length zs = n) w -> Rabs (g w) <= M) -> E_blocks n T g l -> Rabs l <= M.
Proof.
  intros g l M H E. apply Rabs_le. split.
  - apply (E_blocks_mono n T (fun _ => - M) g); [|apply E_blocks_const|exact E]. intros w Hw HF. specialize (H w Hw HF). apply Rabs_le_between in H. lra.
  - apply (E_blocks_mono n T g (fun _ => M)); [|exact E|apply E_blocks_const]. intros w Hw HF. specialize (H w Hw HF). apply Rabs_le_between in H. lra.
Qed.
Lemma E_blocks_close n T g g' l l' M : (forall w, length w = T -> Forall (fun zs => length zs = n) w -> Rabs (g w - g' w) <= M) -> E_blocks n T g l -> E_blocks n T g' l' -> Rabs (l - l') <= M.
Proof.
  intros H E E'. apply (E_blocks_abs n T (fun w => 1 * g w + -1 * g' w)).
  - intros w Hw HF. replace (1 * g w + -1 * g' w) with (g w - g' w) by ring. now apply H.
  - replace (l - l') with (1 * l + -1 * l') by ring. now apply E_blocks_lin.
Qed.
Lemma E_blocks_lip n T : forall g L M, 0 <= L -> (forall w, length w = T -> Forall (fun zs => length zs = n) w -> Rabs (g w) <= M) ->
  (forall w w', length w = T -> Forall (fun zs => length zs = n) w -> length w' = T -> Forall (fun zs => length zs = n) w' -> Rabs (g w - g w') <= L * dist2 w w') -> E_blocks n T g (evb n T g).
Proof.
  induction T as [|T IH]; intros g L M HL HM HLip; cbn [E_blocks evb]; [reflexivity|].
  assert (Hz : forall z, length z = n -> E_blocks n T (fun w => g (z :: w)) (evb n T (fun w => g (z :: w)))).
  { intros z Hz. apply (IH _ L M HL); [intros; apply HM; [cbn; lia|now constructor]|]. intros w w' H HF H' HF'. eapply Rle_trans; [apply HLip; first [now constructor|cbn; lia]|]. apply Req_le. f_equal. cbn [dist2]. rewrite d1_refl. ring. }
  exists (fun z => evb n T (fun w => g (z :: w))). split; [exact Hz|].
  apply (E_normals_lip n _ L M HL).
  - intros z H. apply (E_blocks_abs n T (fun w => g (z :: w))); [|now apply Hz]. intros; apply HM; [cbn; lia|now constructor].
  - intros z z' H H'. apply (E_blocks_close n T (fun w => g (z :: w)) (fun w => g (z' :: w))); [|now apply Hz|now apply Hz]. intros w Hw HF. eapply Rle_trans; [apply HLip; first [now constructor|cbn; lia]|]. apply Req_le. f_equal. cbn [dist2]. rewrite d2_refl. ring.
Qed.
