(** Stability of sgd on randomly drawn examples, and what it says about unseen examples (C98). *)
From Verif Require Import P_elem P_pipe P_diverge.
From Verif Require Export P_sample P_front.
From Coq Require Import List Psatz Permutation.
Import ListNotations.
Open Scope R_scope.
(*@header
From Verif Require Import P_pipe P_sample.
From Coq Require Import List.
Import ListNotations.
Open Scope R_scope.
*)

(** ** Specification *)
(** The loss [f] of one example is convex, differentiable with gradient [grad] and L-smooth; its gradients are at most [G] long. *)
Definition example_loss `{P : Platform} (p : tree (gt XR)) (f : list R -> R) (grad : tree (gt XR) -> tree (gt XR)) (L G : R) : Prop :=
  forall x, point_of p x -> point_of p (grad x) /\ norm2 (rvals (grad x)) <= G /\
    forall y, length y = length (rvals p) ->
      f (rvals x) + dot (rvals (grad x)) (vsub y (rvals x)) <= f y <= f (rvals x) + dot (rvals (grad x)) (vsub y (rvals x)) + L / 2 * sumsq (vsub y (rvals x)).
(** Train on the training set [S] (a list of examples, numbers in a population), taking at each step the gradient of the example at the drawn position. *)
Definition learned `{P : Platform} (T : @GT (XROps P)) (grads : nat -> tree (gt XR) -> tree (gt XR)) (p : tree (gt XR)) (S js : list nat) : list R :=
  trained T (fun j => grads (nth j S 0%nat)) p js.
(** Two training sets that differ at most in the example at one position. *)
Definition neighbours (S S' : list nat) : Prop := length S = length S' /\ exists k, forall j, j <> k -> nth j S 0%nat = nth j S' 0%nat.
Definition test_loss (f : nat -> list R -> R) (K : nat) (w : list R) : R := average (fun z => f z w) (seq 0 K).
Definition train_loss (f : nat -> list R -> R) (S : list nat) (w : list R) : R := average (fun z => f z w) S.

(** ** Vectors *)
Section Lin.
  Variables (a b : R) (u v w : list R) (N : nat).
  Hypotheses (Lu : length u = N) (Lv : length v = N) (Lw : length w = N) (H : forall i, (i < N)%nat -> nth i w 0 = a * nth i u 0 + b * nth i v 0).
  Lemma sumsq_lin : sumsq w = a * a * sumsq u + 2 * (a * b) * dot u v + b * b * sumsq v.
  Proof.
    rewrite (sumsq_seq w N Lw), (sumsq_seq u N Lu), (sumsq_seq v N Lv), (dot_seq u v N Lu Lv). rewrite <- !rsum_map_scal, <- !rsum_map_add. apply rsum_map_ext. intros i Hi. apply in_seq in Hi. rewrite H by lia. ring.
  Qed.
  Lemma dot_lin z : length z = N -> dot w z = a * dot u z + b * dot v z.
  Proof.
    intros Lz. rewrite !(dot_seq _ z N) by assumption. rewrite <- !rsum_map_scal, <- !rsum_map_add. apply rsum_map_ext. intros i Hi. apply in_seq in Hi. rewrite H by lia. ring.
  Qed.
  Lemma norm2_lin : norm2 w <= Rabs a * norm2 u + Rabs b * norm2 v.
  Proof.
    assert (E : w = vadd (map (Rmult a) u) (map (Rmult b) v)).
    { apply (nth_ext _ _ 0 0); [unfold vadd; rewrite map_length, combine_length, !map_length; lia|]. intros i Hi. rewrite Lw in Hi. rewrite H by exact Hi. unfold vadd.
      rewrite (nth_indep (map (fun p => fst p + snd p) (combine (map (Rmult a) u) (map (Rmult b) v))) 0 (fst (0,0) + snd (0,0))) by (rewrite map_length, combine_length, !map_length; lia). rewrite (map_nth (fun p => fst p + snd p) (combine (map (Rmult a) u) (map (Rmult b) v)) (0, 0)). rewrite combine_nth by (rewrite !map_length; lia). cbn [fst snd].
      rewrite (nth_indep (map (Rmult a) u) 0 (a * 0)), (nth_indep (map (Rmult b) v) 0 (b * 0)) by (rewrite map_length; lia). rewrite !map_nth. reflexivity. }
    rewrite E. eapply Rle_trans; [apply norm2_triangle; rewrite !map_length; lia|]. rewrite !norm2_scal. lra.
  Qed.
End Lin.
Lemma dot_comm l m : dot l m = dot m l.
Proof. revert m. induction l as [|a l IH]; intros [|b m]; try reflexivity. rewrite !dot_cons, IH. ring. Qed.
Lemma dot_vsub_lin g x y N : length g = N -> length x = N -> length y = N -> dot g (vsub x y) = dot g x - dot g y.
Proof.
  intros Hg Hx Hy. rewrite (dot_comm g (vsub x y)). rewrite (dot_lin 1 (-1) x y (vsub x y) N Hx Hy (vsub_length x y N Hx Hy)); [rewrite (dot_comm x g), (dot_comm y g); ring| |exact Hg].
  intros i Hi. rewrite (vsub_nth x y N) by assumption. ring.
Qed.
Lemma norm2_sumsq_le u v : sumsq u <= sumsq v -> norm2 u <= norm2 v.
Proof. intros H. apply norm2_le_of_sq; [apply norm2_nonneg|]. now rewrite norm2_sq. Qed.

(** ** Gradients of a smooth convex function are co-coercive *)
Section Coco.
  Context {P : Platform}.
  Variables (p : tree (gt XR)) (f : list R -> R) (grad : tree (gt XR) -> tree (gt XR)) (L G : R).
  Hypotheses (Wp : trwf p) (HL : 0 < L) (HE : example_loss p f grad L G).
  Lemma half_coco x y : point_of p x -> point_of p y ->
    f (rvals x) + dot (rvals (grad x)) (vsub (rvals y) (rvals x)) + / (2 * L) * sumsq (vsub (rvals (grad y)) (rvals (grad x))) <= f (rvals y).
  Proof.
    intros Hx Hy. destruct (HE x Hx) as (Gx & _ & Cx). destruct (HE y Hy) as (Gy & _ & Cy). set (N := length (rvals p)) in *.
    assert (Lx : length (rvals x) = N) by now apply rvals_length. assert (Ly : length (rvals y) = N) by now apply rvals_length.
    assert (Lgx : length (rvals (grad x)) = N) by now apply rvals_length. assert (Lgy : length (rvals (grad y)) = N) by now apply rvals_length.
    set (d := vsub (rvals (grad y)) (rvals (grad x))). assert (Ld : length d = N) by now apply vsub_length.
    set (z := map (fun i => nth i (rvals y) 0 - / L * nth i d 0) (seq 0 N)). assert (Lz : length z = N) by (unfold z; now rewrite map_length, seq_length).
    assert (Hz : forall i, (i < N)%nat -> nth i z 0 = 1 * nth i (rvals y) 0 + (- / L) * nth i d 0) by (intros i Hi; unfold z; rewrite nth_map_seq by exact Hi; ring).
    destruct (Cx z Lz) as (A & _). destruct (Cy z Lz) as (_ & B).
    assert (Ezy : forall i, (i < N)%nat -> nth i (vsub z (rvals y)) 0 = (- / L) * nth i d 0 + 0 * nth i d 0) by (intros i Hi; rewrite (vsub_nth z (rvals y) N) by assumption; rewrite Hz by exact Hi; ring).
    assert (Lzy : length (vsub z (rvals y)) = N) by now apply vsub_length.
    rewrite (sumsq_lin (- / L) 0 d d _ N Ld Ld Lzy Ezy) in B.
    rewrite (dot_vsub_lin _ _ _ N Lgx Lz Lx) in A. rewrite (dot_vsub_lin _ _ _ N Lgy Lz Ly) in B. rewrite (dot_vsub_lin _ _ _ N Lgx Ly Lx).
    assert (Zx : forall g, length g = N -> dot g z = dot g (rvals y) - / L * dot g d). { intros g Lg. rewrite (dot_comm g z), (dot_lin 1 (- / L) (rvals y) d z N Ly Ld Lz Hz g Lg), (dot_comm (rvals y) g), (dot_comm d g). ring. }
    rewrite (Zx _ Lgx) in A. rewrite (Zx _ Lgy) in B.
    assert (Ed : sumsq d = dot (rvals (grad y)) d - dot (rvals (grad x)) d). { assert (E1 : dot d d = sumsq d) by (rewrite (dot_seq d d N), (sumsq_seq d N); auto). rewrite <- E1 at 1. rewrite (dot_lin 1 (-1) (rvals (grad y)) (rvals (grad x)) d N Lgy Lgx Ld); [ring| |exact Ld]. intros i Hi. unfold d. rewrite (vsub_nth _ _ N) by assumption. ring. }
    assert (EL : L / 2 * (- / L * - / L * sumsq d + 2 * (- / L * 0) * dot d d + 0 * 0 * sumsq d) = / (2 * L) * sumsq d) by (field; lra). rewrite EL in B.
    assert (E2 : / L * (dot (rvals (grad y)) d - dot (rvals (grad x)) d) = 2 * (/ (2 * L) * sumsq d)) by (rewrite <- Ed; field; lra). lra.
  Qed.
  Lemma coco x y : point_of p x -> point_of p y -> / L * sumsq (vsub (rvals (grad x)) (rvals (grad y))) <= dot (vsub (rvals (grad x)) (rvals (grad y))) (vsub (rvals x) (rvals y)).
  Proof.
    intros Hx Hy. pose proof (half_coco x y Hx Hy) as A. pose proof (half_coco y x Hy Hx) as B. destruct (HE x Hx) as (Gx & _ & _). destruct (HE y Hy) as (Gy & _ & _). set (N := length (rvals p)) in *.
    assert (Lx : length (rvals x) = N) by now apply rvals_length. assert (Ly : length (rvals y) = N) by now apply rvals_length.
    assert (Lgx : length (rvals (grad x)) = N) by now apply rvals_length. assert (Lgy : length (rvals (grad y)) = N) by now apply rvals_length.
    assert (Es : sumsq (vsub (rvals (grad y)) (rvals (grad x))) = sumsq (vsub (rvals (grad x)) (rvals (grad y)))) by (rewrite !(sumsq_vsub _ _ N) by assumption; apply rsum_map_ext; intros; ring). rewrite Es in A.
    rewrite (dot_vsub_anti _ _ _ N Lgx Ly Lx) in A. set (dx := vsub (rvals x) (rvals y)) in *. assert (Ldx : length dx = N) by now apply vsub_length.
    rewrite (dot_lin 1 (-1) (rvals (grad x)) (rvals (grad y)) (vsub (rvals (grad x)) (rvals (grad y))) N Lgx Lgy (vsub_length _ _ N Lgx Lgy)); [| |exact Ldx].
    - replace (/ L) with (/ (2 * L) + / (2 * L)) by (field; lra). lra.
    - intros i Hi. rewrite (vsub_nth _ _ N) by assumption. ring.
  Qed.
  (** One step of sgd on the loss plus lam/2 |x|^2 contracts. *)
  Lemma step_contracts eta lam x y x' y' : point_of p x -> point_of p y -> 0 <= eta -> 0 <= lam -> eta * L <= 2 * (1 - eta * lam) ->
    length x' = length (rvals p) -> length y' = length (rvals p) ->
    (forall i, (i < length (rvals p))%nat -> nth i x' 0 = nth i (rvals x) 0 - eta * (nth i (rvals (grad x)) 0 + lam * nth i (rvals x) 0)) ->
    (forall i, (i < length (rvals p))%nat -> nth i y' 0 = nth i (rvals y) 0 - eta * (nth i (rvals (grad y)) 0 + lam * nth i (rvals y) 0)) ->
    norm2 (vsub x' y') <= (1 - eta * lam) * norm2 (vsub (rvals x) (rvals y)).
  Proof.
    intros Hx Hy He Hlam Hs Lx' Ly' Ex Ey. pose proof (coco x y Hx Hy) as C. destruct (HE x Hx) as (Gx & _ & _). destruct (HE y Hy) as (Gy & _ & _). set (N := length (rvals p)) in *.
    assert (Lx : length (rvals x) = N) by now apply rvals_length. assert (Ly : length (rvals y) = N) by now apply rvals_length.
    assert (Lgx : length (rvals (grad x)) = N) by now apply rvals_length. assert (Lgy : length (rvals (grad y)) = N) by now apply rvals_length.
    set (a := 1 - eta * lam) in *. assert (Ha : 0 <= a) by (assert (0 <= eta * L) by (apply Rmult_le_pos; lra); lra).
    set (dx := vsub (rvals x) (rvals y)) in *. set (dg := vsub (rvals (grad x)) (rvals (grad y))) in *. assert (Ldx : length dx = N) by now apply vsub_length. assert (Ldg : length dg = N) by now apply vsub_length.
    apply norm2_le_of_sq; [apply Rmult_le_pos; [exact Ha|apply norm2_nonneg]|].
    rewrite (sumsq_lin a (- eta) dx dg (vsub x' y') N Ldx Ldg (vsub_length _ _ N Lx' Ly')).
    - replace (a * norm2 dx * (a * norm2 dx)) with (a * a * (norm2 dx * norm2 dx)) by ring. rewrite norm2_sq, (dot_comm dx dg). pose proof (sumsq_nonneg dg) as Hd.
      assert (A1 : a * eta * (/ L * sumsq dg) <= a * eta * dot dg dx) by (apply Rmult_le_compat_l; [now apply Rmult_le_pos|exact C]).
      assert (A2 : eta * sumsq dg <= 2 * a * (/ L * sumsq dg)). { apply (Rmult_le_reg_r L); [exact HL|]. replace (2 * a * (/ L * sumsq dg) * L) with (2 * a * sumsq dg) by (field; lra). replace (eta * sumsq dg * L) with (eta * L * sumsq dg) by ring. now apply Rmult_le_compat_r. }
      assert (A3 : eta * (eta * sumsq dg) <= eta * (2 * a * (/ L * sumsq dg))) by (now apply Rmult_le_compat_l). nra.
    - intros i Hi. unfold dx, dg. rewrite !(vsub_nth _ _ N) by assumption. rewrite Ex, Ey by exact Hi. unfold a. ring.
  Qed.
End Coco.

(** ** Weight decay in front *)
Lemma wd_update `{O : Ops} (wd : F) (W : tree (gt (F * F))) s : trwf W ->
  update (add_decayed_weights wd) (emapt (fun _ => fst) W) s (Some (emapt (fun _ => snd) W)) = Ok (emapt (fun d z => fadd d (fst z) (fmul d (fcast d wd) (snd z))) W, s).
Proof.
  intros WW. cbn [update add_decayed_weights stateless]. erewrite tmm2_ew; [cbn; reflexivity|]. intros; rewrite ?emap_emap, ?un_emap, ?sl_emap, ?sr_emap; rewrite ?emap_emap; rewrite bin_emap; reflexivity.
Qed.
Lemma decayed `{P : Platform} (lam : R) (p x u : tree (gt XR)) s : trwf p -> point_of p x -> point_of p u ->
  exists v, @update (XROps P) (@add_decayed_weights (XROps P) (Fin lam)) u s (Some x) = Ok (v, s) /\ point_of p v /\
    forall i, (i < length (rvals p))%nat -> nth i (rvals v) 0 = nth i (rvals u) 0 + lam * nth i (rvals x) 0.
Proof.
  intros Wp Hx Hu. destruct (Hx) as ((Ax & Wx) & Fx). destruct (Hu) as ((Au & Wu) & Fu).
  destruct (tree_gzip u x (eq_trans Au (eq_sym Ax)) Wu Wx) as (W & A1 & B1 & E1 & E2).
  set (v := emapt (fun d z => @fadd (XROps P) d (fst z) (@fmul (XROps P) d (@fcast (XROps P) d (Fin lam)) (snd z))) W).
  assert (Ev : @update (XROps P) (@add_decayed_weights (XROps P) (Fin lam)) u s (Some x) = Ok (v, s)).
  { rewrite <- E1, <- E2. exact (@wd_update (XROps P) (Fin lam) W s B1). }
  assert (Hel : forall pos a b, elt u pos = Some (Fin a) -> elt x pos = Some (Fin b) -> elt v pos = Some (Fin (a + lam * b))).
  { intros pos a b Ha Hb. assert (EW : elt W pos = Some (Fin a, Fin b)). { rewrite <- E1, elt_emapt in Ha. rewrite <- E2, elt_emapt in Hb. destruct (elt W pos) as [[y z]|]; cbn [option_map fst snd] in *; [|discriminate]. now injection Ha as ->; injection Hb as ->. }
    unfold v. rewrite elt_emapt. nx. rewrite EW. reflexivity. }
  assert (Av : avals v = avals p) by (unfold v; rewrite emapt_avals; rewrite <- E1, emapt_avals in Au; exact Au).
  assert (Hv : point_of p v).
  { split; [split; [exact Av|now apply emapt_wf]|]. apply finite_of_elts. intros pos y Hy. unfold v in Hy. rewrite elt_emapt in Hy. nx. destruct (elt W pos) as [[a b]|] eqn:EW; cbn [option_map] in Hy; [|discriminate].
    assert (Ea : elt u pos = Some a) by (rewrite <- E1, elt_emapt, EW; reflexivity). assert (Eb : elt x pos = Some b) by (rewrite <- E2, elt_emapt, EW; reflexivity).
    destruct (finite_elt u pos a Fu Ea) as (r1 & ->). destruct (finite_elt x pos b Fx Eb) as (r2 & ->). apply (f_equal (fun o => match o with Some z => z | None => y end)) in Hy. rewrite <- Hy. eexists; reflexivity. }
  exists v. split; [exact Ev|]. split; [exact Hv|]. intros i Hi. destruct (coord p i Wp Hi) as (pos & Hpos). pose proof (Hel pos _ _ (Hpos u Hu) (Hpos x Hx)) as E. pose proof (eq_trans (eq_sym (Hpos v Hv)) E) as E3. now injection E3.
Qed.

(** ** Two runs on neighbouring training sets *)
Lemma indicator_sum (c : R) k M : 0 <= c -> rsum (map (fun j => if (j =? k)%nat then c else 0) (seq 0 M)) <= c.
Proof.
  intros Hc. induction M as [|M IH]; [cbn; rewrite rsum_nil; exact Hc|]. rewrite rsum_seq_S. destruct (Nat.eqb_spec M k) as [->|Hne]; [|lra].
  rewrite (rsum_map_ext _ (fun _ => 0)); [rewrite rsum_map_const; lra|]. intros j Hj. apply in_seq in Hj. destruct (Nat.eqb_spec j k); [lia|reflexivity].
Qed.
Section Pair.
  Context {P : Platform}.
  Notation xr := (XROps P).
  Variables (R_ : @lrate xr) (lr : Z -> R) (p : tree (gt XR)) (K : nat) (f : nat -> list R -> R) (grads h : nat -> tree (gt XR) -> tree (gt XR)) (T : @GT xr) (L G lam : R).
  Hypotheses (HR : forall n, rate R_ (count_at n) = Fin (lr (count_at n))) (Wp : trwf p) (Fp : finite_tree p) (ET : @sgd xr R_ None false = Ok T) (HL : 0 < L) (HG : 0 <= G) (Hlam : 0 <= lam).
  Hypothesis HE : forall z, (z < K)%nat -> example_loss p (f z) (grads z) L G.
  Hypothesis Hh : forall z x, (z < K)%nat -> point_of p x -> point_of p (h z x) /\ forall i, (i < length (rvals p))%nat -> nth i (rvals (h z x)) 0 = nth i (rvals (grads z x)) 0 + lam * nth i (rvals x) 0.
  Hypothesis Hlr : forall n, 0 <= lr (count_at n) /\ lr (count_at n) * L <= 2 * (1 - lr (count_at n) * lam).
  Variables (S0 S1 : list nat) (k : nat).
  Hypotheses (H0 : Forall (fun z => (z < K)%nat) S0) (H1 : Forall (fun z => (z < K)%nat) S1) (HS : length S0 = length S1) (Hk : forall j, j <> k -> nth j S0 0%nat = nth j S1 0%nat).
  Let M := length S0.
  Let D js := norm2 (vsub (learned T h p S0 js) (learned T h p S1 js)).
  Lemma in_set (S : list nat) j : Forall (fun z => (z < K)%nat) S -> (j < length S)%nat -> (nth j S 0 < K)%nat.
  Proof. intros HF Hj. rewrite Forall_forall in HF. apply HF, nth_In, Hj. Qed.
  Lemma pair_step js j : Forall (fun j => (j < M)%nat) js -> (j < M)%nat -> D (js ++ [j]) <= (1 - lr (count_at (length js)) * lam) * D js + (if (j =? k)%nat then 2 * lr (count_at (length js)) * G else 0).
  Proof.
    intros HF Hj. assert (HF1 : Forall (fun j => (j < length S1)%nat) js) by (rewrite <- HS; exact HF).
    assert (Hg0 : forall x j, point_of p x -> (j < length S0)%nat -> point_of p (h (nth j S0 0%nat) x)) by (intros x i Hx Hi; apply Hh; [now apply in_set|exact Hx]).
    assert (Hg1 : forall x j, point_of p x -> (j < length S1)%nat -> point_of p (h (nth j S1 0%nat) x)) by (intros x i Hx Hi; apply Hh; [now apply in_set|exact Hx]).
    destruct (run_sample R_ lr p (length S0) (fun j => h (nth j S0 0%nat)) T HR Wp Fp ET Hg0 js HF) as (x & _ & Hx & Ex & Nx).
    destruct (run_sample R_ lr p (length S1) (fun j => h (nth j S1 0%nat)) T HR Wp Fp ET Hg1 js HF1) as (y & _ & Hy & Ey & Ny).
    destruct (Nx j Hj) as (x' & _ & Hx' & Ex' & Cx). destruct (Ny j ltac:(rewrite <- HS; exact Hj)) as (y' & _ & Hy' & Ey' & Cy).
    unfold D, learned. rewrite Ex, Ey, Ex', Ey'. set (eta := lr (count_at (length js))) in *. destruct (Hlr (length js)) as (He & Hs). fold eta in He, Hs.
    assert (Lx' : length (rvals x') = length (rvals p)) by now apply rvals_length. assert (Ly' : length (rvals y') = length (rvals p)) by now apply rvals_length.
    assert (Cx2 : forall i, (i < length (rvals p))%nat -> nth i (rvals x') 0 = nth i (rvals x) 0 - eta * (nth i (rvals (grads (nth j S0 0%nat) x)) 0 + lam * nth i (rvals x) 0)) by (intros i Hi; rewrite (Cx i Hi); f_equal; f_equal; apply Hh; [now apply in_set|exact Hx|exact Hi]).
    assert (Cy2 : forall i, (i < length (rvals p))%nat -> nth i (rvals y') 0 = nth i (rvals y) 0 - eta * (nth i (rvals (grads (nth j S1 0%nat) y)) 0 + lam * nth i (rvals y) 0)) by (intros i Hi; rewrite (Cy i Hi); f_equal; f_equal; apply Hh; [apply in_set; [exact H1|rewrite <- HS; exact Hj]|exact Hy|exact Hi]).
    destruct (Nat.eqb_spec j k) as [->|Hne].
    - assert (Z0 : (nth k S0 0 < K)%nat) by now apply in_set. assert (Z1 : (nth k S1 0 < K)%nat) by (apply in_set; [exact H1|rewrite <- HS; exact Hj]).
      destruct (HE _ Z0 x Hx) as (G0 & B0 & _). destruct (HE _ Z1 y Hy) as (G1 & B1 & _). set (N := length (rvals p)) in *.
      assert (Lx : length (rvals x) = N) by now apply rvals_length. assert (Ly : length (rvals y) = N) by now apply rvals_length.
      set (gx := rvals (grads (nth k S0 0%nat) x)) in *. set (gy := rvals (grads (nth k S1 0%nat) y)) in *. assert (Lgx : length gx = N) by now apply rvals_length. assert (Lgy : length gy = N) by now apply rvals_length.
      pose proof (norm2_lin (1 - eta * lam) (- eta) (vsub (rvals x) (rvals y)) (vsub gx gy) (vsub (rvals x') (rvals y')) N (vsub_length _ _ N Lx Ly) (vsub_length _ _ N Lgx Lgy) (vsub_length _ _ N Lx' Ly')) as Q.
      pose proof (norm2_lin 1 (-1) gx gy (vsub gx gy) N Lgx Lgy (vsub_length _ _ N Lgx Lgy)) as Q2. assert (Hb : norm2 (vsub gx gy) <= 2 * G). { rewrite Rabs_R1, Rabs_left in Q2 by lra. eapply Rle_trans; [apply Q2|]; [intros i Hi; rewrite (vsub_nth gx gy N) by assumption; ring|]. lra. }
      assert (Ha : 0 <= 1 - eta * lam) by (assert (0 <= eta * L) by (apply Rmult_le_pos; lra); lra).
      eapply Rle_trans; [apply Q|].
      + intros i Hi. rewrite !(vsub_nth _ _ N) by assumption. rewrite Cx2, Cy2 by exact Hi. ring.
      + rewrite (Rabs_right (1 - eta * lam)) by lra. rewrite Rabs_Ropp, (Rabs_right eta) by lra. assert (eta * norm2 (vsub gx gy) <= eta * (2 * G)) by (now apply Rmult_le_compat_l). lra.
    - rewrite <- (Hk j Hne) in Cy2. rewrite Rplus_0_r. assert (Z0 : (nth j S0 0 < K)%nat) by now apply in_set.
      exact (step_contracts p (f (nth j S0 0%nat)) (grads (nth j S0 0%nat)) L G Wp HL (HE _ Z0) eta lam x y (rvals x') (rvals y') Hx Hy He Hlam Hs Lx' Ly' Cx2 Cy2).
  Qed.
  Lemma pair_start : D [] = 0.
  Proof.
    unfold D, learned, trained. cbn [length fit]. destruct (@init xr T p) as [s|] eqn:Ei; cbn [rbind].
    - apply norm2_0. unfold vsub. apply Forall_map, Forall_forall. intros (a, b) Hab. cbn [fst snd]. assert (E : a = b); [|subst; ring]. revert Hab. generalize (rvals p). intros l. induction l as [|c l IH]; cbn; [easy|]. intros [[= <- <-]|H]; [reflexivity|auto].
    - apply norm2_0. constructor.
  Qed.
  Hypothesis HM : (0 < M)%nat.
  Lemma pair_mean n : average D (draws M (S n)) <= (1 - lr (count_at n) * lam) * average D (draws M n) + 2 * lr (count_at n) * G / INR M.
  Proof.
    rewrite average_draws_S by exact HM. set (eta := lr (count_at n)). destruct (Hlr n) as (He & _). fold eta in He.
    apply Rle_trans with (average (fun js => (1 - eta * lam) * D js + 2 * eta * G / INR M) (draws M n)).
    - apply average_le. intros js Hjs. apply draws_all in Hjs as (Ln & HF). apply Rle_trans with (average (fun j => (1 - eta * lam) * D js + (if (j =? k)%nat then 2 * eta * G else 0)) (seq 0 M)).
      + apply average_le. intros j Hj. apply in_seq in Hj. pose proof (pair_step js j HF ltac:(lia)) as Q. rewrite Ln in Q. exact Q.
      + rewrite average_plus, average_const by (intros E0; apply (f_equal (@length nat)) in E0; rewrite seq_length in E0; cbn [length] in E0; rewrite E0 in HM; exact (Nat.lt_irrefl _ HM)). apply Rplus_le_compat_l. unfold average. rewrite seq_length. apply Rmult_le_compat_r; [left; apply Rinv_0_lt_compat, lt_0_INR, HM|]. apply indicator_sum. apply Rmult_le_pos; lra.
    - rewrite average_plus, average_scal, average_const by now apply draws_some. lra.
  Qed.
  Lemma pair_zero : average D (draws M 0) = 0.
  Proof. unfold average. cbn [draws map length]. rewrite rsum_cons, rsum_nil, pair_start. change (INR 1) with 1. field. Qed.
  Lemma pair_sum n : average D (draws M n) <= 2 * G / INR M * rsum (map (fun t => lr (count_at t)) (seq 0 n)).
  Proof.
    induction n as [|n IH]; [rewrite pair_zero; cbn [seq map]; rewrite rsum_nil; lra|]. rewrite rsum_seq_S. pose proof (pair_mean n) as Q. destruct (Hlr n) as (He & _).
    assert (HA : 0 <= average D (draws M n)). { apply Rle_trans with (average (fun _ : list nat => 0) (draws M n)); [rewrite average_const by (now apply draws_some); lra|]. apply average_le. intros js _. apply norm2_nonneg. }
    assert (0 <= lr (count_at n) * lam * average D (draws M n)) by (apply Rmult_le_pos; [now apply Rmult_le_pos|exact HA]).
    replace (2 * G / INR M * (rsum (map (fun t => lr (count_at t)) (seq 0 n)) + lr (count_at n))) with (2 * G / INR M * rsum (map (fun t => lr (count_at t)) (seq 0 n)) + 2 * lr (count_at n) * G / INR M) by (unfold Rdiv; ring). lra.
  Qed.
  Lemma pair_forever n : 0 < lam -> average D (draws M n) <= 2 * G / (lam * INR M).
  Proof.
    intros Hl. assert (HMp : 0 < INR M) by now apply lt_0_INR. assert (HB : 0 <= 2 * G / (lam * INR M)) by (apply Rmult_le_pos; [lra|left; apply Rinv_0_lt_compat; now apply Rmult_lt_0_compat]).
    induction n as [|n IH]; [rewrite pair_zero; exact HB|]. pose proof (pair_mean n) as Q. destruct (Hlr n) as (He & Hs).
    assert (Ha : 0 <= 1 - lr (count_at n) * lam) by (assert (0 <= lr (count_at n) * L) by (apply Rmult_le_pos; lra); lra).
    assert ((1 - lr (count_at n) * lam) * average D (draws M n) <= (1 - lr (count_at n) * lam) * (2 * G / (lam * INR M))) by now apply Rmult_le_compat_l.
    assert (E : (1 - lr (count_at n) * lam) * (2 * G / (lam * INR M)) + 2 * lr (count_at n) * G / INR M = 2 * G / (lam * INR M)) by (field; split; lra). lra.
  Qed.
End Pair.

(*@ C98_stability : sgd with any learning-rate schedule (rates at most 2/L) on a training set of M examples whose losses are convex and L-smooth with gradients at most G long: every run succeeds, and if one example of the training set is replaced by any other, the parameters after n steps move, averaged over all draws, by at most 2 G / M times the sum of the learning rates used. *)
Lemma stability : forall `{P : Platform} (rt : lrate) (lr : Z -> R) (p : tree tensor) (K : nat) (f : nat -> list R -> R) (grads : nat -> tree tensor -> tree tensor) (L G : R) (S S' : list nat) (n : nat),
  0 < L -> (forall c, (0 <= c)%Z -> rate rt c = Fin (lr c) /\ 0 <= lr c /\ lr c * L <= 2) -> trwf p -> finite_tree p -> (forall z, (z < K)%nat -> example_loss p (f z) (grads z) L G) ->
  S <> [] -> Forall (fun z => (z < K)%nat) S -> Forall (fun z => (z < K)%nat) S' -> neighbours S S' ->
  exists T, sgd rt None false = Ok T /\
    (forall js, Forall (fun j => (j < length S)%nat) js -> exists x s, fit T (fun i => grads (nth (nth i js 0%nat) S 0%nat)) (length js) p = Ok (x, s) /\ point_of p x) /\
    average (fun js => norm2 (vsub (learned T grads p S js) (learned T grads p S' js))) (draws (length S) n) <= 2 * G / INR (length S) * rsum (map (fun t => lr (count_at t)) (seq 0 n)).
Proof.
  intros P rt lr p K f grads L G S0 S1 n HL Hr Wp Fp HE Hne H0 H1 (HS & k & Hk). destruct (sgd_exists rt) as (T & ET). exists T. split; [exact ET|].
  assert (HR : forall n, rate rt (count_at n) = Fin (lr (count_at n))) by (intros i; apply Hr, count_at_nonneg).
  assert (Hpp : point_of p p) by (split; [split; [reflexivity|exact Wp]|exact Fp]).
  assert (HM : (0 < length S0)%nat) by (destruct S0; [easy|cbn; lia]).
  assert (HG : 0 <= G). { assert (Z : (nth 0 S0 0 < K)%nat) by (now apply in_set). destruct (HE _ Z p Hpp) as (_ & B & _). eapply Rle_trans; [apply norm2_nonneg|exact B]. }
  assert (Hh : forall z x, (z < K)%nat -> point_of p x -> point_of p (grads z x) /\ forall i, (i < length (rvals p))%nat -> nth i (rvals (grads z x)) 0 = nth i (rvals (grads z x)) 0 + 0 * nth i (rvals x) 0) by (intros z x Hz Hx; split; [apply (HE z Hz x Hx)|intros; ring]).
  split.
  - intros js HF. refine (run_ok rt lr p (length S0) (fun j => grads (nth j S0 0%nat)) T HR Wp Fp ET _ js HF). intros x j Hx Hj. apply Hh; [now apply in_set|exact Hx].
  - refine (pair_sum rt lr p K f grads grads T L G 0 HR Wp Fp ET HL HG ltac:(lra) HE Hh _ S0 S1 k H0 H1 HS Hk HM n). intros i. destruct (Hr _ (count_at_nonneg i)) as (_ & A & B). split; [exact A|]. lra.
Qed.

(*@ C98_initialisation : and two runs of sgd that see the same examples in the same order but start from different parameters never get further apart than they started. *)
Lemma initialisation : forall `{P : Platform} (rt : lrate) (lr : Z -> R) (p q : tree tensor) (K : nat) (f : nat -> list R -> R) (grads : nat -> tree tensor -> tree tensor) (L G : R) (js : list nat),
  0 < L -> (forall c, (0 <= c)%Z -> rate rt c = Fin (lr c) /\ 0 <= lr c /\ lr c * L <= 2) -> trwf p -> finite_tree p -> point_of p q -> (forall z, (z < K)%nat -> example_loss p (f z) (grads z) L G) ->
  Forall (fun z => (z < K)%nat) js ->
  exists T, sgd rt None false = Ok T /\ norm2 (vsub (trained T grads p js) (trained T grads q js)) <= norm2 (vsub (rvals p) (rvals q)).
Proof.
  intros P rt lr p q K f grads L G js HL Hr Wp Fp Hq HE. destruct (sgd_exists rt) as (T & ET). intros HF. exists T. split; [exact ET|].
  assert (HR : forall n, rate rt (count_at n) = Fin (lr (count_at n))) by (intros i; apply Hr, count_at_nonneg).
  assert (Hpq : forall x, point_of q x <-> point_of p x). { intros x. destruct Hq as ((Ha & _) & _). split; intros ((Hb & Hw) & Hf); (split; [split; [|exact Hw]|exact Hf]); [exact (eq_trans Hb Ha)|exact (eq_trans Hb (eq_sym Ha))]. }
  assert (Wq : trwf q) by apply Hq. assert (Fq : finite_tree q) by apply Hq. assert (EL : length (rvals q) = length (rvals p)) by now apply rvals_length.
  assert (Hg : forall x j, point_of p x -> (j < K)%nat -> point_of p (grads j x)) by (intros x j Hx Hj; apply (HE j Hj x Hx)).
  assert (Hgq : forall x j, point_of q x -> (j < K)%nat -> point_of q (grads j x)) by (intros x j Hx Hj; apply Hpq, (HE j Hj x), Hpq, Hx).
  induction js as [|j js IH] using rev_ind.
  - destruct (run_sample rt lr p K grads T HR Wp Fp ET Hg [] (Forall_nil _)) as (x & Ex & _ & -> & _). destruct (run_sample rt lr q K grads T HR Wq Fq ET Hgq [] (Forall_nil _)) as (y & Ey & _ & -> & _). cbn [length fit] in Ex, Ey.
    destruct (@init (XROps P) T p); [|discriminate]. destruct (@init (XROps P) T q); [|discriminate]. cbn [rbind] in Ex, Ey. injection Ex as <- _. injection Ey as <- _. lra.
  - apply Forall_app in HF as (HF & Hj). inversion Hj as [|? ? Hz _]; subst. specialize (IH HF).
    destruct (run_sample rt lr p K grads T HR Wp Fp ET Hg js HF) as (x & _ & Hx & Ex & Nx). destruct (run_sample rt lr q K grads T HR Wq Fq ET Hgq js HF) as (y & _ & Hy & Ey & Ny). rewrite Ex, Ey in IH.
    destruct (Nx j Hz) as (x' & _ & Hx' & -> & Cx). destruct (Ny j Hz) as (y' & _ & Hy' & -> & Cy). eapply Rle_trans; [|exact IH]. destruct (Hr _ (count_at_nonneg (length js))) as (_ & H1 & H2).
    rewrite <- (Rmult_1_l (norm2 (vsub (rvals x) (rvals y)))). replace 1 with (1 - lr (count_at (length js)) * 0) by ring.
    apply (step_contracts p (f j) (grads j) L G Wp HL (HE j Hz) (lr (count_at (length js))) 0 x y (rvals x') (rvals y') Hx (proj1 (Hpq y) Hy) H1 ltac:(lra) ltac:(lra)).
    + now apply rvals_length.
    + rewrite <- EL. now apply rvals_length.
    + intros i Hi. rewrite (Cx i Hi). ring.
    + intros i Hi. rewrite (Cy i) by (rewrite EL; exact Hi). ring.
Qed.

(** A stateless stage put in front of an optimiser. *)
Lemma front1 `{O : Ops} (A B : GT) (a : state) (grad G : nat -> tree tensor -> tree tensor) (p : tree tensor) : init A p = Ok a ->
  forall n, (forall i q s, (i < n)%nat -> fit B G i p = Ok (q, s) -> update A (grad i q) a (Some q) = Ok (G i q, a)) ->
  fit (chain_gt [A; B]) grad n p = let* (q, s) := fit B G n p in Ok (q, SNode NList [a; s]).
Proof.
  intros HA n HU. induction n as [|n IH]; cbn [fit].
  - cbn [init chain_gt chain_init]. rewrite HA. cbn [rbind rmap]. destruct (init B p) as [s|e]; reflexivity.
  - rewrite IH by (intros; eapply HU; [lia|eassumption]). destruct (fit B G n p) as [[q s]|e] eqn:E; [|reflexivity]. cbn [rbind].
    cbn [update chain_gt length Nat.eqb chain_update]. rewrite (HU n q s ltac:(lia) E). cbn [rbind].
    destruct (update B (G n q) s (Some q)) as [[u s']|e]; [|reflexivity]. cbn [rbind]. destruct (apply_updates q u) as [q'|e]; reflexivity.
Qed.
(*@ C98_weight_decay : with add_decayed_weights(weight_decay) in front of sgd (learning rates with lr L <= 2 (1 - lr weight_decay)) the change caused by replacing one of the M examples stays below 2 G / (weight_decay M) on average however long training lasts. *)
Lemma stability_decay : forall `{P : Platform} (rt : lrate) (lr : Z -> R) (lam : R) (p : tree tensor) (K : nat) (f : nat -> list R -> R) (grads : nat -> tree tensor -> tree tensor) (L G : R) (S S' : list nat) (n : nat),
  0 < L -> 0 < lam -> (forall c, (0 <= c)%Z -> rate rt c = Fin (lr c) /\ 0 <= lr c /\ lr c * L <= 2 * (1 - lr c * lam)) -> trwf p -> finite_tree p -> (forall z, (z < K)%nat -> example_loss p (f z) (grads z) L G) ->
  S <> [] -> Forall (fun z => (z < K)%nat) S -> Forall (fun z => (z < K)%nat) S' -> neighbours S S' ->
  exists B, sgd rt None false = Ok B /\ let T := chain_gt [add_decayed_weights (Fin lam); B] in
    (forall js, Forall (fun j => (j < length S)%nat) js -> exists x s, fit T (fun i => grads (nth (nth i js 0%nat) S 0%nat)) (length js) p = Ok (x, s) /\ point_of p x) /\
    average (fun js => norm2 (vsub (learned T grads p S js) (learned T grads p S' js))) (draws (length S) n) <= 2 * G / (lam * INR (length S)).
Proof.
  intros P rt lr lam p K f grads L G S0 S1 n HL Hlam Hr Wp Fp HE Hne H0 H1 (HS & k & Hk). destruct (sgd_exists rt) as (T & ET). exists T. split; [exact ET|]. cbn zeta.
  assert (HR : forall n, rate rt (count_at n) = Fin (lr (count_at n))) by (intros i; apply Hr, count_at_nonneg).
  assert (Hpp : point_of p p) by (split; [split; [reflexivity|exact Wp]|exact Fp]).
  assert (HM : (0 < length S0)%nat) by (destruct S0; [easy|cbn; lia]).
  assert (HG : 0 <= G). { assert (Z : (nth 0 S0 0 < K)%nat) by (now apply in_set). destruct (HE _ Z p Hpp) as (_ & B & _). eapply Rle_trans; [apply norm2_nonneg|exact B]. }
  set (A := @add_decayed_weights (XROps P) (Fin lam)). set (a := SNode NEmpty [] : @state (XROps P)).
  set (h := fun (z : nat) (x : tree (gt XR)) => match @update (XROps P) A (grads z x) a (Some x) with Ok (v, _) => v | Err _ => x end).
  assert (Hu : forall z x, (z < K)%nat -> point_of p x -> @update (XROps P) A (grads z x) a (Some x) = Ok (h z x, a) /\ point_of p (h z x) /\ forall i, (i < length (rvals p))%nat -> nth i (rvals (h z x)) 0 = nth i (rvals (grads z x)) 0 + lam * nth i (rvals x) 0).
  { intros z x Hz Hx. destruct (decayed lam p x (grads z x) a Wp Hx (proj1 (HE z Hz x Hx))) as (v & E & Hv & Hc). fold A in E. assert (Eh : h z x = v) by (unfold h; rewrite E; reflexivity). rewrite Eh. auto. }
  assert (Hh : forall z x, (z < K)%nat -> point_of p x -> point_of p (h z x) /\ forall i, (i < length (rvals p))%nat -> nth i (rvals (h z x)) 0 = nth i (rvals (grads z x)) 0 + lam * nth i (rvals x) 0) by (intros z x Hz Hx; apply Hu; assumption).
  assert (Hfit : forall S js, Forall (fun z => (z < K)%nat) S -> Forall (fun j => (j < length S)%nat) js ->
     (exists x s, @fit (XROps P) T (fun i => h (nth (nth i js 0%nat) S 0%nat)) (length js) p = Ok (x, s) /\ point_of p x) /\
     @fit (XROps P) (chain_gt [A; T]) (fun i => grads (nth (nth i js 0%nat) S 0%nat)) (length js) p = let* (q, s) := @fit (XROps P) T (fun i => h (nth (nth i js 0%nat) S 0%nat)) (length js) p in Ok (q, SNode NList [a; s])).
  { intros S js HSK HF. assert (Hgp : forall x j, point_of p x -> (j < length S)%nat -> point_of p (h (nth j S 0%nat) x)) by (intros x j Hx Hj; apply Hh; [now apply in_set|exact Hx]).
    split; [exact (run_ok rt lr p (length S) (fun j => h (nth j S 0%nat)) T HR Wp Fp ET Hgp js HF)|].
    apply (@front1 (XROps P) A T a); [reflexivity|]. intros i q s Hi E.
    assert (Hq : point_of p q).
    { assert (HF2 : Forall (fun j => (j < length S)%nat) (firstn i js)) by (rewrite Forall_forall in *; intros j Hj; apply HF; rewrite <- (firstn_skipn i js); apply in_or_app; now left).
      destruct (run_ok rt lr p (length S) (fun j => h (nth j S 0%nat)) T HR Wp Fp ET Hgp (firstn i js) HF2) as (x & s' & Ex & Hx).
      assert (Li : length (firstn i js) = i) by (rewrite firstn_length; lia). rewrite Li in Ex.
      rewrite (@fit_ext (XROps P) T _ (fun i => h (nth (nth i js 0%nat) S 0%nat)) i p) in Ex by (intros t Ht; f_equal; f_equal; rewrite <- (firstn_skipn i js) at 2; rewrite app_nth1 by lia; reflexivity).
      nx. rewrite Ex in E. injection E as <- _. exact Hx. }
    assert (Hz : (nth (nth i js 0%nat) S 0 < K)%nat) by (apply in_set; [exact HSK|]; rewrite Forall_forall in HF; apply HF, nth_In; exact Hi).
    exact (proj1 (Hu _ q Hz Hq)). }
  assert (Hl : forall S js, Forall (fun z => (z < K)%nat) S -> Forall (fun j => (j < length S)%nat) js -> learned (chain_gt [A; T]) grads p S js = learned T h p S js).
  { intros S js HSK HF. destruct (Hfit S js HSK HF) as ((x & s & E & _) & E2). unfold learned, trained. nx. rewrite E2, E. reflexivity. }
  split.
  - intros js HF. destruct (Hfit S0 js H0 HF) as ((x & s & E & Hx) & E2). exists x, (SNode NList [a; s]). split; [|exact Hx]. nx. rewrite E2, E. reflexivity.
  - apply Rle_trans with (average (fun js => norm2 (vsub (learned T h p S0 js) (learned T h p S1 js))) (draws (length S0) n)).
    + apply average_le. intros js Hjs. apply draws_all in Hjs as (_ & HF). rewrite (Hl S0 js H0 HF), (Hl S1 js H1) by (rewrite <- HS; exact HF). lra.
    + refine (pair_forever rt lr p K f grads h T L G lam HR Wp Fp ET HL HG ltac:(lra) HE Hh _ S0 S1 k H0 H1 HS Hk HM n Hlam). intros i. destruct (Hr _ (count_at_nonneg i)) as (_ & B1 & B2). auto.
Qed.

(** ** From stability to unseen examples *)
Lemma average_swap {A B} (h : A -> B -> R) l m : average (fun a => average (h a) m) l = average (fun b => average (fun a => h a b) l) m.
Proof.
  unfold average. rewrite (rsum_map_ext (fun a => rsum (map (h a) m) / INR (length m)) (fun a => / INR (length m) * rsum (map (h a) m))) by (intros; unfold Rdiv; ring).
  rewrite (rsum_map_ext (fun b => rsum (map (fun a => h a b) l) / INR (length l)) (fun b => / INR (length l) * rsum (map (fun a => h a b) l))) by (intros; unfold Rdiv; ring).
  rewrite !rsum_map_scal, (rsum_swap h l m). unfold Rdiv. ring.
Qed.
Lemma average_minus {A} (h k : A -> R) l : average (fun x => h x - k x) l = average h l - average k l.
Proof. unfold average. rewrite rsum_map_sub. unfold Rdiv. ring. Qed.
Lemma Rabs_def2_le x b : Rabs x <= b -> - b <= x <= b.
Proof. unfold Rabs. destruct (Rcase_abs x); lra. Qed.
Lemma average_abs {A} (h : A -> R) l b : l <> [] -> (forall x, In x l -> Rabs (h x) <= b) -> Rabs (average h l) <= b.
Proof.
  intros Hl H. apply Rabs_le. split.
  - rewrite <- (average_const (- b) l Hl). apply average_le. intros x Hx. specialize (H x Hx). apply Rabs_def2_le in H. lra.
  - rewrite <- (average_const b l Hl). apply average_le. intros x Hx. specialize (H x Hx). apply Rabs_def2_le in H. lra.
Qed.
Lemma average_list (h : nat -> R) (l : list nat) : average h l = average (fun i => h (nth i l 0%nat)) (seq 0 (length l)).
Proof.
  unfold average. rewrite seq_length. f_equal. f_equal. induction l as [|a l IH]; [reflexivity|]. cbn [length seq map nth]. f_equal. rewrite IH, <- seq_shift, map_map. reflexivity.
Qed.
Lemma rsum_prod {A B} (g : A * B -> R) l m : rsum (map g (list_prod l m)) = rsum (map (fun a => rsum (map (fun b => g (a, b)) m)) l).
Proof. induction l as [|a l IH]; [reflexivity|]. cbn [list_prod map]. rewrite map_app, rsum_app, IH, rsum_cons, map_map. reflexivity. Qed.
Lemma nodup_prod {A B} (l : list A) (m : list B) : NoDup l -> NoDup m -> NoDup (list_prod l m).
Proof.
  intros Hl Hm. induction Hl as [|a l Ha Hl IH]; [constructor|]. cbn [list_prod]. apply nodup_app; [|exact IH|].
  - apply FinFun.Injective_map_NoDup; [|exact Hm]. intros x y [= ->]. reflexivity.
  - intros (x, y) H1 H2. apply in_map_iff in H1 as (b & [= <- <-] & _). apply in_prod_iff in H2 as (H2 & _). contradiction.
Qed.
Fixpoint upd (i z : nat) (S : list nat) : list nat := match S, i with [], _ => [] | _ :: r, 0%nat => z :: r | a :: r, Datatypes.S i' => a :: upd i' z r end.
Lemma upd_length i z S : length (upd i z S) = length S.
Proof. revert i. induction S as [|a S IH]; intros [|i]; cbn; auto. Qed.
Lemma upd_same i z S : (i < length S)%nat -> nth i (upd i z S) 0%nat = z.
Proof. revert i. induction S as [|a S IH]; intros [|i] H; cbn in *; try lia; auto. apply IH. lia. Qed.
Lemma upd_other i z S j : j <> i -> nth j (upd i z S) 0%nat = nth j S 0%nat.
Proof. revert i j. induction S as [|a S IH]; intros [|i] [|j] H; cbn; try congruence; auto. Qed.
Lemma upd_back i z S : upd i (nth i S 0%nat) (upd i z S) = S.
Proof. revert i. induction S as [|a S IH]; intros [|i]; cbn; auto. now rewrite IH. Qed.
Lemma upd_bound K i z S : (z < K)%nat -> Forall (fun z => (z < K)%nat) S -> Forall (fun z => (z < K)%nat) (upd i z S).
Proof. intros Hz H. revert i. induction H as [|a S Ha H IH]; intros [|i]; cbn; constructor; auto. Qed.
(** Exchanging the i-th example of the training set with a fresh one does not change averages over both. *)
Lemma exchange K M i (h : list nat -> nat -> R) : (i < M)%nat ->
  average (fun S => average (h S) (seq 0 K)) (draws K M) = average (fun S => average (fun z => h (upd i z S) (nth i S 0%nat)) (seq 0 K)) (draws K M).
Proof.
  intros Hi. set (phi := fun q : list nat * nat => (upd i (snd q) (fst q), nth i (fst q) 0%nat)). set (g := fun q : list nat * nat => h (fst q) (snd q)).
  assert (E : forall k : list nat * nat -> R, average (fun S => average (fun z => k (S, z)) (seq 0 K)) (draws K M) = / (INR (length (draws K M)) * INR K) * rsum (map k (list_prod (draws K M) (seq 0 K)))).
  { intros k. rewrite rsum_prod. unfold average. rewrite seq_length. rewrite (rsum_map_ext (fun S => rsum (map (fun z => k (S, z)) (seq 0 K)) / INR K) (fun S => / INR K * rsum (map (fun z => k (S, z)) (seq 0 K)))) by (intros; unfold Rdiv; ring). rewrite rsum_map_scal, Rinv_mult. unfold Rdiv. ring. }
  assert (E1 : average (fun S => average (h S) (seq 0 K)) (draws K M) = / (INR (length (draws K M)) * INR K) * rsum (map g (list_prod (draws K M) (seq 0 K)))) by exact (E g).
  rewrite E1. assert (E2 : average (fun S => average (fun z => h (upd i z S) (nth i S 0%nat)) (seq 0 K)) (draws K M) = / (INR (length (draws K M)) * INR K) * rsum (map (fun q => g (phi q)) (list_prod (draws K M) (seq 0 K)))) by exact (E (fun q => g (phi q))).
  rewrite E2. f_equal. rewrite <- (map_map phi g). apply rsum_perm, Permutation_map. destruct (draws_all K M) as (Hnd & _ & Hin).
  assert (Hcl : forall q, In q (list_prod (draws K M) (seq 0 K)) -> In (phi q) (list_prod (draws K M) (seq 0 K)) /\ phi (phi q) = q).
  { intros (S, z) Hq. apply in_prod_iff in Hq as (HS & Hz). apply Hin in HS as (HL & HF). apply in_seq in Hz. unfold phi. cbn [fst snd]. split.
    - apply in_prod_iff. split; [apply Hin; split; [now rewrite upd_length|apply upd_bound; [lia|exact HF]]|]. apply in_seq. rewrite Forall_forall in HF. split; [lia|]. apply HF, nth_In. lia.
    - now rewrite upd_back, upd_same by lia. }
  assert (Hnp : NoDup (list_prod (draws K M) (seq 0 K))) by (apply nodup_prod; [exact Hnd|apply seq_NoDup]).
  apply NoDup_Permutation; [exact Hnp| |].
  - assert (G : forall l : list (list nat * nat), (forall q, In q l -> phi (phi q) = q) -> NoDup l -> NoDup (map phi l)).
    { clear. intros l Hcl Hn. induction Hn as [|q l Hq Hn IH]; [constructor|]. cbn [map]. constructor; [|apply IH; intros r Hr; apply Hcl; now right].
      intros H. apply in_map_iff in H as (r & Er & Hr). apply Hq. rewrite <- (Hcl q (or_introl eq_refl)), <- Er, (Hcl r (or_intror Hr)). exact Hr. }
    apply G; [intros q Hq; apply (Hcl q Hq)|exact Hnp].
  - intros q. split; intros Hq.
    + destruct (Hcl q Hq) as (H1 & H2). rewrite <- H2. now apply in_map.
    + apply in_map_iff in Hq as (r & <- & Hr). apply (Hcl r Hr).
Qed.
Lemma lipschitz `{P : Platform} (p : tree (gt XR)) f grad L G x y : trwf p -> example_loss p f grad L G -> point_of p x -> point_of p y -> Rabs (f (rvals x) - f (rvals y)) <= G * norm2 (vsub (rvals x) (rvals y)).
Proof.
  intros Wp HE Hx Hy. assert (K : forall a b, point_of p a -> point_of p b -> f (rvals a) - f (rvals b) <= G * norm2 (vsub (rvals a) (rvals b))).
  { intros a b Ha Hb. destruct (HE a Ha) as (Ga & Bg & C). assert (La : length (rvals a) = length (rvals p)) by now apply rvals_length. assert (Lb : length (rvals b) = length (rvals p)) by now apply rvals_length. assert (Lg : length (rvals (grad a)) = length (rvals p)) by now apply rvals_length.
    destruct (C (rvals b) Lb) as (C1 & _). rewrite (dot_vsub_anti _ _ _ _ Lg Lb La) in C1. assert (Q : dot (rvals (grad a)) (vsub (rvals a) (rvals b)) <= norm2 (rvals (grad a)) * norm2 (vsub (rvals a) (rvals b))) by (apply dot_le; rewrite Lg; symmetry; now apply vsub_length).
    assert (norm2 (rvals (grad a)) * norm2 (vsub (rvals a) (rvals b)) <= G * norm2 (vsub (rvals a) (rvals b))) by (apply Rmult_le_compat_r; [apply norm2_nonneg|exact Bg]). lra. }
  assert (Es : norm2 (vsub (rvals y) (rvals x)) = norm2 (vsub (rvals x) (rvals y))). { assert (Lx : length (rvals x) = length (rvals p)) by now apply rvals_length. assert (Ly : length (rvals y) = length (rvals p)) by now apply rvals_length. apply Rsqr_inj; [apply norm2_nonneg..|]. unfold Rsqr. rewrite !norm2_sq, !(sumsq_vsub _ _ (length (rvals p))) by assumption. apply rsum_map_ext. intros; ring. }
  apply Rabs_le. pose proof (K x y Hx Hy) as A. pose proof (K y x Hy Hx) as B. rewrite Es in B. lra.
Qed.
(*@ C98_stable_generalises : any optimiser, any number of steps, any way of using the gradients: if replacing one example of a training set of size M changes the trained parameters by at most B on average over the draws, then the average over all training sets (M examples drawn from the population of K with replacement) and all draws of (loss on the whole population - loss on the training set) is at most G B in absolute value. *)
Lemma stable_generalises : forall `{P : Platform} (T : GT) (p : tree tensor) (K M n : nat) (f : nat -> list R -> R) (grads : nat -> tree tensor -> tree tensor) (L G B : R),
  (0 < K)%nat -> (0 < M)%nat -> trwf p -> finite_tree p -> (forall z, (z < K)%nat -> example_loss p (f z) (grads z) L G) ->
  (forall S js, In S (draws K M) -> In js (draws M n) -> exists x s, fit T (fun i => grads (nth (nth i js 0%nat) S 0%nat)) (length js) p = Ok (x, s) /\ point_of p x) ->
  (forall S S', In S (draws K M) -> In S' (draws K M) -> neighbours S S' -> average (fun js => norm2 (vsub (learned T grads p S js) (learned T grads p S' js))) (draws M n) <= B) ->
  Rabs (average (fun S => average (fun js => test_loss f K (learned T grads p S js) - train_loss f S (learned T grads p S js)) (draws M n)) (draws K M)) <= G * B.
Proof.
  intros P T p K M n f grads L G B HK HM Wp Fp HE Hrun Hst.
  assert (HG : 0 <= G). { assert (Hpp : point_of p p) by (split; [split; [reflexivity|exact Wp]|exact Fp]). destruct (HE 0%nat HK p Hpp) as (_ & A & _). eapply Rle_trans; [apply norm2_nonneg|exact A]. }
  set (H := fun S z => average (fun js => f z (learned T grads p S js)) (draws M n)).
  assert (NK : draws K M <> []) by now apply draws_some. assert (NM : draws M n <> []) by now apply draws_some.
  assert (NsK : seq 0 K <> []) by (destruct K; [lia|discriminate]). assert (NsM : seq 0 M <> []) by (destruct M; [lia|discriminate]).
  assert (E : average (fun S => average (fun js => test_loss f K (learned T grads p S js) - train_loss f S (learned T grads p S js)) (draws M n)) (draws K M)
     = average (fun i => average (fun S => average (fun z => H (upd i z S) (nth i S 0%nat) - H S (nth i S 0%nat)) (seq 0 K)) (draws K M)) (seq 0 M)).
  { rewrite (average_ext _ (fun S => average (H S) (seq 0 K) - average (fun i => H S (nth i S 0%nat)) (seq 0 M))).
    - rewrite average_minus, (average_swap (fun S i => H S (nth i S 0%nat))). rewrite <- (average_const (average (fun S => average (H S) (seq 0 K)) (draws K M)) (seq 0 M) NsM). rewrite <- average_minus. apply average_ext. intros i Hi. apply in_seq in Hi.
      rewrite (exchange K M i H) by lia. rewrite <- average_minus. apply average_ext. intros S _. rewrite <- (average_const (H S (nth i S 0%nat)) (seq 0 K) NsK) at 1. now rewrite <- average_minus.
    - intros S HS. apply draws_all in HS as (LS & _). rewrite average_minus. f_equal.
      + unfold test_loss. apply (average_swap (fun js z => f z (learned T grads p S js))).
      + unfold train_loss, H. rewrite <- (average_swap (fun js i => f (nth i S 0%nat) (learned T grads p S js))). apply average_ext. intros js _. rewrite average_list, LS. reflexivity. }
  rewrite E. apply average_abs; [exact NsM|]. intros i Hi. apply in_seq in Hi. apply average_abs; [exact NK|]. intros S HS. apply average_abs; [exact NsK|]. intros z Hz. apply in_seq in Hz.
  pose proof HS as HS2. apply draws_all in HS2 as (LS & FS). assert (HU : In (upd i z S) (draws K M)) by (apply draws_all; split; [now rewrite upd_length|apply upd_bound; [lia|exact FS]]).
  assert (HN : neighbours (upd i z S) S) by (split; [apply upd_length|]; exists i; intros j Hj; now apply upd_other).
  unfold H. rewrite <- average_minus. assert (Hzi : (nth i S 0 < K)%nat) by (rewrite Forall_forall in FS; apply FS, nth_In; lia).
  assert (Hb : forall js, In js (draws M n) -> Rabs (f (nth i S 0%nat) (learned T grads p (upd i z S) js) - f (nth i S 0%nat) (learned T grads p S js)) <= G * norm2 (vsub (learned T grads p (upd i z S) js) (learned T grads p S js))).
  { intros js Hjs. destruct (Hrun _ _ HU Hjs) as (x & s & Ex & Hx). destruct (Hrun _ _ HS Hjs) as (y & s' & Ey & Hy). unfold learned, trained. nx. rewrite Ex, Ey. exact (lipschitz p _ _ L G x y Wp (HE _ Hzi) Hx Hy). }
  pose proof (Hst _ _ HU HS HN) as Q. assert (Q2 : G * average (fun js => norm2 (vsub (learned T grads p (upd i z S) js) (learned T grads p S js))) (draws M n) <= G * B) by now apply Rmult_le_compat_l.
  rewrite <- average_scal in Q2. apply Rabs_le. split.
  - apply Rle_trans with (- average (fun js => G * norm2 (vsub (learned T grads p (upd i z S) js) (learned T grads p S js))) (draws M n)); [lra|]. replace (- average (fun js => G * norm2 (vsub (learned T grads p (upd i z S) js) (learned T grads p S js))) (draws M n)) with (-1 * average (fun js => G * norm2 (vsub (learned T grads p (upd i z S) js) (learned T grads p S js))) (draws M n)) by ring. rewrite <- average_scal. apply average_le. intros js Hjs. specialize (Hb js Hjs). apply Rabs_def2_le in Hb. lra.
  - eapply Rle_trans; [|exact Q2]. apply average_le. intros js Hjs. specialize (Hb js Hjs). apply Rabs_def2_le in Hb. lra.
Qed.
(*@ C98_generalisation : hence, on average over training sets and draws, the loss of sgd on unseen examples differs from its training loss by at most 2 G^2 / M times the sum of the learning rates; and with weight decay in front by at most 2 G^2 / (weight_decay M), however long training lasts. *)
Lemma generalisation : forall `{P : Platform} (rt : lrate) (lr : Z -> R) (p : tree tensor) (K M n : nat) (f : nat -> list R -> R) (grads : nat -> tree tensor -> tree tensor) (L G : R),
  (0 < K)%nat -> (0 < M)%nat -> 0 < L -> trwf p -> finite_tree p -> (forall z, (z < K)%nat -> example_loss p (f z) (grads z) L G) ->
  let gap T := average (fun S => average (fun js => test_loss f K (learned T grads p S js) - train_loss f S (learned T grads p S js)) (draws M n)) (draws K M) in
  ((forall c, (0 <= c)%Z -> rate rt c = Fin (lr c) /\ 0 <= lr c /\ lr c * L <= 2) ->
   exists T, sgd rt None false = Ok T /\ Rabs (gap T) <= 2 * G ^ 2 / INR M * rsum (map (fun t => lr (count_at t)) (seq 0 n))) /\
  (forall lam, 0 < lam -> (forall c, (0 <= c)%Z -> rate rt c = Fin (lr c) /\ 0 <= lr c /\ lr c * L <= 2 * (1 - lr c * lam)) ->
   exists B, sgd rt None false = Ok B /\ Rabs (gap (chain_gt [add_decayed_weights (Fin lam); B])) <= 2 * G ^ 2 / (lam * INR M)).
Proof.
  intros P rt lr p K M n f grads L G HK HM HL Wp Fp HE. cbn zeta. destruct (sgd_exists rt) as (T & ET).
  assert (HMp : 0 < INR M) by now apply lt_0_INR.
  assert (Hd : forall S, In S (draws K M) -> length S = M /\ S <> [] /\ Forall (fun z => (z < K)%nat) S). { intros S HS. apply draws_all in HS as (A & B). split; [exact A|]. split; [intros ->; cbn in A; lia|exact B]. }
  split.
  - intros Hr. exists T. split; [exact ET|].
    replace (2 * G ^ 2 / INR M * rsum (map (fun t => lr (count_at t)) (seq 0 n))) with (G * (2 * G / INR M * rsum (map (fun t => lr (count_at t)) (seq 0 n)))) by (field; lra).
    apply (stable_generalises T p K M n f grads L G _ HK HM Wp Fp HE).
    + intros S js HS Hjs. destruct (Hd S HS) as (A1 & A2 & A3). destruct (stability rt lr p K f grads L G S S n HL Hr Wp Fp HE A2 A3 A3) as (T' & ET' & Hok & _); [split; [reflexivity|]; exists 0%nat; reflexivity|]. nx. rewrite ET in ET'. injection ET' as <-. apply Hok. rewrite A1. now apply draws_all in Hjs.
    + intros S S' HS HS' HN. destruct (Hd S HS) as (A1 & A2 & A3). destruct (Hd S' HS') as (B1 & B2 & B3). destruct (stability rt lr p K f grads L G S S' n HL Hr Wp Fp HE A2 A3 B3 HN) as (T' & ET' & _ & Q). nx. rewrite ET in ET'. injection ET' as <-. rewrite A1 in Q. exact Q.
  - intros lam Hlam Hr. exists T. split; [exact ET|].
    replace (2 * G ^ 2 / (lam * INR M)) with (G * (2 * G / (lam * INR M))) by (field; split; lra).
    apply (stable_generalises (chain_gt [@add_decayed_weights (XROps P) (Fin lam); T]) p K M n f grads L G _ HK HM Wp Fp HE).
    + intros S js HS Hjs. destruct (Hd S HS) as (A1 & A2 & A3). destruct (stability_decay rt lr lam p K f grads L G S S n HL Hlam Hr Wp Fp HE A2 A3 A3) as (T' & ET' & Hok & _); [split; [reflexivity|]; exists 0%nat; reflexivity|]. nx. rewrite ET in ET'. injection ET' as <-. apply Hok. rewrite A1. now apply draws_all in Hjs.
    + intros S S' HS HS' HN. destruct (Hd S HS) as (A1 & A2 & A3). destruct (Hd S' HS') as (B1 & B2 & B3). destruct (stability_decay rt lr lam p K f grads L G S S' n HL Hlam Hr Wp Fp HE A2 A3 B3 HN) as (T' & ET' & _ & Q). nx. rewrite ET in ET'. injection ET' as <-. rewrite A1 in Q. exact Q.
Qed.

(** ** A population of two examples with Huber losses *)
Definition hub (r : R) : R := if Rle_dec (Rabs r) 1 then r * r / 2 else Rabs r - 1 / 2.
Definition hubs (z : nat) (l : list R) : R := rsum (map (fun v => hub (v - target z)) l).
Definition hgrad (z : nat) (x : tree (gt XR)) : tree (gt XR) := emapt (fun _ v => xmax (Fin (-1)) (xmin (Fin 1) (xsub v (Fin (target z))))) x.
Lemma hub_low g b : -1 <= g <= 1 -> g * b - g * g / 2 <= hub b.
Proof.
  intros Hg. unfold hub, Rabs. destruct (Rcase_abs b), (Rle_dec _ _).
  - pose proof (Rle_0_sqr (b - g)) as Q. unfold Rsqr in Q. nra.
  - assert (0 <= (1 + g) * (- b - (1 - g) / 2)) by (apply Rmult_le_pos; lra). nra.
  - pose proof (Rle_0_sqr (b - g)) as Q. unfold Rsqr in Q. nra.
  - assert (0 <= (1 - g) * (b - (1 + g) / 2)) by (apply Rmult_le_pos; lra). nra.
Qed.
Lemma hub_high m b : hub b <= Rabs m + (b - m) * (b - m) / 2.
Proof.
  pose proof (Rle_abs m) as M1. pose proof (Rle_abs (- m)) as M2. rewrite Rabs_Ropp in M2. unfold hub. destruct (Rle_dec _ _) as [H|H].
  - assert (Q : b * m <= Rabs m). { eapply Rle_trans; [apply Rle_abs|]. rewrite Rabs_mult. rewrite <- (Rmult_1_l (Rabs m)) at 2. apply Rmult_le_compat_r; [apply Rabs_pos|exact H]. } pose proof (Rle_0_sqr m) as Q2. unfold Rsqr in Q2. nra.
  - pose proof (Rle_0_sqr (b - m - 1)) as Q. pose proof (Rle_0_sqr (b - m + 1)) as Q2. unfold Rsqr in Q, Q2. unfold Rabs at 1. destruct (Rcase_abs b); nra.
Qed.
Lemma hub_step a b : let g := Rmax (-1) (Rmin 1 a) in hub a + g * (b - a) <= hub b <= hub a + g * (b - a) + 1 / 2 * ((b - a) * (b - a)).
Proof.
  cbn zeta. set (g := Rmax (-1) (Rmin 1 a)). assert (Hg : -1 <= g <= 1) by (unfold g, Rmax, Rmin; repeat destruct (Rle_dec _ _); lra).
  assert (Ea : hub a = g * a - g * g / 2 /\ hub a = Rabs (a - g) + g * g / 2).
  { unfold hub, g, Rmax, Rmin, Rabs. repeat destruct (Rle_dec _ _); repeat destruct (Rcase_abs _); split; try lra; nra. }
  destruct Ea as (E1 & E2). split; [rewrite E1; pose proof (hub_low g b Hg); lra|]. rewrite E2. pose proof (hub_high (a - g) b). nra.
Qed.
Lemma hub_example_loss `{P : Platform} z : let p := Leaf (mkT F32 [1%nat] [Fin 5]) in example_loss p (hubs z) (hgrad z) 1 1.
Proof.
  cbn zeta. set (p := Leaf (mkT F32 [1%nat] [Fin 5])). assert (Wp : trwf p) by (repeat constructor). intros x Hx.
  assert (Hg : point_of p (hgrad z x)).
  { destruct Hx as ((Ha & Hw) & Fx). split; [split; [unfold hgrad; now rewrite emapt_avals|now apply emapt_wf]|]. apply finite_of_elts. intros pos v. unfold hgrad. rewrite elt_emapt. destruct (elt x pos) as [w|] eqn:E; [|discriminate]. destruct (finite_elt x pos w Fx E) as (r & ->). intros [= <-]. cbn. eexists; reflexivity. }
  split; [exact Hg|].
  assert (Ev : rvals (hgrad z x) = map (fun v => Rmax (-1) (Rmin 1 (v - target z))) (rvals x)).
  { destruct Hx as (_ & Fx). unfold rvals, vals, hgrad, emapt. rewrite leaves_tmap, map_map. change (fun x : gt XR => dat (emap (fun _ v => xmax (Fin (-1)) (xmin (Fin 1) (xsub v (Fin (target z))))) x)) with (fun x : gt XR => map (fun v => xmax (Fin (-1)) (xmin (Fin 1) (xsub v (Fin (target z))))) (dat x)).
    rewrite <- (map_map dat (map (fun v => xmax (Fin (-1)) (xmin (Fin 1) (xsub v (Fin (target z))))))), <- concat_map, !map_map. unfold finite_tree, vals in Fx. rewrite Forall_forall in Fx. apply map_ext_in. intros v Hv. destruct (Fx v Hv) as (r & ->). reflexivity. }
  assert (Lx : length (rvals x) = 1%nat) by exact (rvals_length p x Wp Hx). rewrite Ev. destruct (rvals x) as [|a [|]]; try discriminate Lx. cbn [map]. split.
  - apply norm2_le_of_sq; [lra|]. rewrite sumsq_cons. change (sumsq []) with (rsum []). rewrite rsum_nil. set (m := Rmax _ _). assert (-1 <= m <= 1) by (unfold m, Rmax, Rmin; repeat destruct (Rle_dec _ _); lra). nra.
  - intros y Ly. change (length (rvals p)) with 1%nat in Ly. destruct y as [|b [|]]; try discriminate Ly. unfold hubs, vsub. cbn [map combine fst snd]. rewrite !rsum_cons, !rsum_nil, dot_cons, sumsq_cons. change (dot [] []) with (rsum []). change (sumsq []) with (rsum []). rewrite rsum_nil.
    pose proof (hub_step (a - target z) (b - target z)) as Q. cbn zeta in Q. replace (b - target z - (a - target z)) with (b - a) in Q by ring. lra.
Qed.
(*@ex C98_example *)
Lemma stable_example : forall `{P : Platform} (n : nat), let p := Leaf (mkT F32 [1%nat] [Fin 5]) in
  (forall z, (z < 2)%nat -> example_loss p (hubs z) (hgrad z) 1 1) /\ neighbours [0%nat; 1%nat; 1%nat] [0%nat; 0%nat; 1%nat] /\
  (exists T, sgd (LConst (Fin (1 / 2))) None false = Ok T /\
     average (fun js => norm2 (vsub (learned T hgrad p [0%nat; 1%nat; 1%nat] js) (learned T hgrad p [0%nat; 0%nat; 1%nat] js))) (draws 3 n) <= INR n / 3) /\
  (exists B, sgd (LConst (Fin (1 / 2))) None false = Ok B /\ let T := chain_gt [add_decayed_weights (Fin (1 / 4)); B] in
     average (fun js => norm2 (vsub (learned T hgrad p [0%nat; 1%nat; 1%nat] js) (learned T hgrad p [0%nat; 0%nat; 1%nat] js))) (draws 3 n) <= 8 / 3).
Proof.
  intros P n. cbn zeta. set (p := Leaf (mkT F32 [1%nat] [Fin 5])). assert (Wp : trwf p) by (repeat constructor). assert (Fp : finite_tree p) by (repeat constructor; eexists; reflexivity).
  assert (HE : forall z, (z < 2)%nat -> example_loss p (hubs z) (hgrad z) 1 1) by (intros z _; apply hub_example_loss).
  assert (HN : neighbours [0%nat; 1%nat; 1%nat] [0%nat; 0%nat; 1%nat]). { split; [reflexivity|]. exists 1%nat. intros [|[|[|j]]] Hj; cbn; try reflexivity. now contradict Hj. }
  assert (A : Forall (fun z => (z < 2)%nat) [0%nat; 1%nat; 1%nat]) by (repeat constructor). assert (A' : Forall (fun z => (z < 2)%nat) [0%nat; 0%nat; 1%nat]) by (repeat constructor).
  split; [exact HE|]. split; [exact HN|]. split.
  - destruct (@stability P (@LConst (XROps P) (Fin (1 / 2))) (fun _ => 1 / 2) p 2 hubs hgrad 1 1 [0%nat; 1%nat; 1%nat] [0%nat; 0%nat; 1%nat] n) as (T & ET & _ & Q); [lra|intros c _; split; [reflexivity|lra]|exact Wp|exact Fp|exact HE|discriminate|exact A|exact A'|exact HN|].
    exists T. split; [exact ET|]. cbn [length] in Q. eapply Rle_trans; [exact Q|]. rewrite rsum_map_const, seq_length. replace (INR 3) with 3 by (cbn; ring). right. field.
  - destruct (@stability_decay P (@LConst (XROps P) (Fin (1 / 2))) (fun _ => 1 / 2) (1 / 4) p 2 hubs hgrad 1 1 [0%nat; 1%nat; 1%nat] [0%nat; 0%nat; 1%nat] n) as (T & ET & _ & Q); [lra|lra|intros c _; split; [reflexivity|lra]|exact Wp|exact Fp|exact HE|discriminate|exact A|exact A'|exact HN|].
    exists T. split; [exact ET|]. cbn [length] in Q. eapply Rle_trans; [exact Q|]. replace (INR 3) with 3 by (cbn; ring). right. field.
Qed.
