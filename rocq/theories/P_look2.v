(** lookahead around sgd: convergence (C93). *)
From Verif Require Import P_elem P_pipe P_look.
From Verif Require Export P_sample.
From Coq Require Import String List Psatz.
Import ListNotations.
Open Scope R_scope.
(*@header
From Verif Require Import P_pipe P_look.
From Coq Require Import List.
Import ListNotations.
Open Scope R_scope.
*)

(** ** Specification *)
(** The gradient is taken at the fast parameters. *)
Definition at_fast {A} (grad : tree A -> tree A) (_ : nat) (q : tree A) : tree A := match getattr q "fast" with Ok f => grad f | Err _ => q end.
(** [f] lies above its parabolas of curvature m. *)
Definition strongly_convex `{P : Platform} (p : tree (gt XR)) (f : list R -> R) (grad : tree (gt XR) -> tree (gt XR)) (m : R) : Prop :=
  forall x y, point_of p x -> length y = length (rvals p) -> f (rvals x) + dot (rvals (grad x)) (vsub y (rvals x)) + m / 2 * sumsq (vsub y (rvals x)) <= f y.

(** ** One call of lookahead *)
Lemma look_step `{P : Platform} (opt T : @GT (XROps P)) (k n : nat) (a : R) (p0 f s g u : tree (gt XR)) (si si' : state) : (1 <= k)%nat -> (Z.of_nat k < 2 ^ 31)%Z ->
  @lookahead (XROps P) opt (Z.of_nat k) (Fin a) false = Ok T -> @like (XROps P) p0 f -> @like (XROps P) p0 s -> @like (XROps P) p0 u ->
  @update (XROps P) opt g si (Some (LookaheadParams f s)) = Ok (u, si') ->
  exists lu f1 s1, @update (XROps P) T g (SNode NLookahead [si; SInt I32 (Z.of_nat (n mod k))]) (Some (LookaheadParams f s)) = Ok (lu, SNode NLookahead [si'; SInt I32 (Z.of_nat (S n mod k))]) /\
    @apply_updates (XROps P) (LookaheadParams f s) lu = Ok (LookaheadParams f1 s1) /\ @like (XROps P) p0 f1 /\ @like (XROps P) p0 s1 /\
    forall pos x y z, elt f pos = Some (Fin x) -> elt u pos = Some (Fin y) -> elt s pos = Some (Fin z) ->
      elt f1 pos = Some (Fin (if (S n mod k =? 0)%nat then z + a * (x + y - z) else x + y)) /\ elt s1 pos = Some (Fin (if (S n mod k =? 0)%nat then z + a * (x + y - z) else z)).
Proof.
  intros Hk Hk2 HT Hf Hs Hu Eu. unfold lookahead in HT. destruct (Z.ltb_spec (Z.of_nat k) 1) as [|_]; [lia|]. injection HT as HT.
  destruct (@like3 (XROps P) p0 f u s Hf Hu Hs) as (W & HWa & HWw & E1 & E2 & E3).
  set (sync := (S n mod k =? 0)%nat).
  set (f1 := emapt (fun d z => @fadd (XROps P) d (fst (fst z)) (@lfast (XROps P) (Fin a) sync d (fst (fst z)) (snd (fst z)) (snd z))) W).
  set (s1 := emapt (fun d z => @fadd (XROps P) d (snd z) (@lslow (XROps P) (Fin a) sync d (fst (fst z)) (snd (fst z)) (snd z))) W).
  set (lu := LookaheadParams (emapt (fun d z => @lfast (XROps P) (Fin a) sync d (fst (fst z)) (snd (fst z)) (snd z)) W) (emapt (fun d z => @lslow (XROps P) (Fin a) sync d (fst (fst z)) (snd (fst z)) (snd z)) W)).
  exists lu, f1, s1. split; [|split; [|split; [|split]]].
  - rewrite <- HT. cbn [update]. nx. rewrite Eu. cbn [rbind]. rewrite mod_S_Z by exact Hk. fold sync. pose proof (@look_update_ew (XROps P) W (Fin a) sync) as HL. cbn zeta in HL. nx. rewrite E1, E2, E3 in HL.
    etransitivity; [apply (f_equal (fun x => rbind x _)); exact HL|]. cbn [rbind]. rewrite (mod_next n k Hk Hk2). reflexivity.
  - pose proof (@apply_look (XROps P) W (fun d z => @lfast (XROps P) (Fin a) sync d (fst (fst z)) (snd (fst z)) (snd z)) (fun d z => @lslow (XROps P) (Fin a) sync d (fst (fst z)) (snd (fst z)) (snd z))) as HA. nx. rewrite E1, E3 in HA. exact HA.
  - split; [unfold f1; rewrite emapt_avals; exact HWa|now apply emapt_wf].
  - split; [unfold s1; rewrite emapt_avals; exact HWa|now apply emapt_wf].
  - intros pos x y z Ex Ey Ez. nx. rewrite <- E1 in Ex. rewrite <- E2 in Ey. rewrite <- E3 in Ez. unfold f1, s1.
    pose proof (@elt_map3 (XROps P) W pos) as H3. nx. rewrite (H3 _ _ _ _ Ex Ey Ez), (H3 _ _ _ _ Ex Ey Ez). cbn [fst snd].
    destruct (look_elt a sync (leafdt W pos) x y z) as (L1 & L2). nx. rewrite L1, L2. destruct sync; auto.
Qed.

Section Look.
  Context {P : Platform}.
  Notation xr := (XROps P).
  Variables (lr a : R) (k : nat) (p : tree (gt XR)) (grad : tree (gt XR) -> tree (gt XR)) (B T : @GT xr).
  Hypotheses (Hk : (1 <= k)%nat) (Hk2 : (Z.of_nat k < 2 ^ 31)%Z) (Wp : trwf p) (Fp : finite_tree p) (EB : @sgd xr (LConst (Fin lr)) None false = Ok B) (ET : @lookahead xr B (Z.of_nat k) (Fin a) false = Ok T).
  Hypothesis Hg : forall x, point_of p x -> point_of p (grad x).
  Let N := length (rvals p).
  Let L := @LConst xr (Fin lr).
  Let st n := @SNode xr NLookahead [sgd_state L 0; SInt I32 (Z.of_nat (n mod k))].
  (** The fast and slow parameters after n steps. *)
  Definition pair_at (n : nat) : tree (gt XR) * tree (gt XR) :=
    match @fit xr T (at_fast grad) n (LookaheadParams p p) with Ok (Node (KNT _ _) [f; s], _) => (f, s) | _ => (p, p) end.
  Let F n := fst (pair_at n).
  Let S_ n := snd (pair_at n).
  (** The sgd step from [x], as a tree. *)
  Lemma gd_point x : point_of p x -> exists y, point_of p y /\ forall i, (i < N)%nat -> nth i (rvals y) 0 = nth i (rvals x) 0 - lr * nth i (rvals (grad x)) 0.
  Proof. intros Hx. destruct (sgd_step L (fun _ => lr) p (grad x) x 0 (fun _ => eq_refl) Wp (Hg x Hx) Hx) as (_ & _ & y & _ & _ & _ & _ & Hy & Hc). exists y. auto. Qed.
  Lemma look_sgd_step n f s : @fit xr T (at_fast grad) n (LookaheadParams p p) = Ok (LookaheadParams f s, st n) -> point_of p f -> point_of p s ->
    exists f1 s1, @fit xr T (at_fast grad) (S n) (LookaheadParams p p) = Ok (LookaheadParams f1 s1, st (S n)) /\ point_of p f1 /\ point_of p s1 /\
      forall i, (i < N)%nat -> let y := nth i (rvals f) 0 - lr * nth i (rvals (grad f)) 0 in let z := nth i (rvals s) 0 in
        nth i (rvals f1) 0 = (if (S n mod k =? 0)%nat then z + a * (y - z) else y) /\ nth i (rvals s1) 0 = (if (S n mod k =? 0)%nat then z + a * (y - z) else z).
  Proof.
    intros E Hf Hs. set (v := emapt (fun d x => @fmul xr d (@fcast xr d (@fneg xr (Fin lr))) x) (grad f)). pose proof (Hg f Hf) as Hu.
    assert (Hv : point_of p v). { destruct Hu as ((Ha & Hw) & Fx). split; [split; [unfold v; now rewrite emapt_avals|now apply emapt_wf]|]. apply finite_of_elts. intros pos y. intros H. unfold v in H. rewrite elt_emapt in H. nx. destruct (elt (grad f) pos) as [w|] eqn:Ew; cbn [option_map] in H; [|inversion H]. destruct (finite_elt (grad f) pos w Fx Ew) as (r & ->). apply (f_equal (fun o => match o with Some z => z | None => y end)) in H. rewrite <- H. eexists; reflexivity. }
    assert (Eu : @update xr B (grad f) (sgd_state L 0) (Some (LookaheadParams f s)) = Ok (v, sgd_state L 0)). { unfold sgd, L in EB. injection EB as <-. reflexivity. }
    destruct (look_step B T k n a p f s (grad f) v (sgd_state L 0) (sgd_state L 0) Hk Hk2 ET (proj1 Hf) (proj1 Hs) (proj1 Hv) Eu) as (lu & f1 & s1 & EU & EA & Lf & Ls & He).
    assert (Hc : forall w, @like xr p w -> (forall pos, (exists x, elt f pos = Some (Fin x)) -> exists x, elt w pos = Some (Fin x)) -> point_of p w).
    { intros w (Ha & Ww) Hel. split; [split; [exact Ha|exact Ww]|]. apply finite_of_elts. intros pos y Hy. destruct Hf as ((Hfa & Wf) & Ff). destruct (elt f pos) as [z|] eqn:Ez.
      - destruct (finite_elt f pos z Ff Ez) as (r & ->). destruct (Hel pos (ex_intro _ r Ez)) as (x & Ex). exists x. nx. congruence.
      - exfalso. assert (elt w pos <> None) as H1 by (intros H1; nx; congruence). exact (elt_like f w pos (eq_trans Ha (eq_sym Hfa)) Wf Ww H1 Ez). }
    assert (Hn : forall w pos, point_of p w -> (exists x, elt f pos = Some (Fin x)) -> exists r, elt w pos = Some (Fin r)).
    { intros w pos ((Hwa & Ww) & Fw) (x & Ex). destruct (elt w pos) as [z|] eqn:Ez; [destruct (finite_elt w pos z Fw Ez) as (r & ->); eauto|]. exfalso. destruct Hf as ((Hfa & Wf) & Ff). assert (elt f pos <> None) as H1 by (intros H1; nx; congruence). exact (elt_like w f pos (eq_trans Hfa (eq_sym Hwa)) Ww Wf H1 Ez). }
    assert (Pf : point_of p f1) by (apply Hc; [exact Lf|]; intros pos (x & Ex); destruct (Hn v pos Hv (ex_intro _ x Ex)) as (y & Ey); destruct (Hn s pos Hs (ex_intro _ x Ex)) as (z & Ez); eexists; exact (proj1 (He pos x y z Ex Ey Ez))).
    assert (Ps : point_of p s1) by (apply Hc; [exact Ls|]; intros pos (x & Ex); destruct (Hn v pos Hv (ex_intro _ x Ex)) as (y & Ey); destruct (Hn s pos Hs (ex_intro _ x Ex)) as (z & Ez); eexists; exact (proj2 (He pos x y z Ex Ey Ez))).
    exists f1, s1. split; [|split; [exact Pf|split; [exact Ps|]]].
    - cbn [fit]. nx. rewrite E. cbn [rbind]. change (at_fast grad n (LookaheadParams f s)) with (grad f). nx. unfold st at 1. rewrite EU. cbn [rbind]. nx. rewrite EA. reflexivity.
    - intros i Hi. cbn zeta. destruct (coord p i Wp Hi) as (pos & Hpos). 
      assert (Ev : elt v pos = Some (Fin (- lr * nth i (rvals (grad f)) 0))). { unfold v. rewrite elt_emapt. nx. rewrite (Hpos (grad f) Hu). reflexivity. }
      destruct (He pos _ _ _ (Hpos f Hf) Ev (Hpos s Hs)) as (R1 & R2). pose proof (eq_trans (eq_sym (Hpos f1 Pf)) R1) as Q1. pose proof (eq_trans (eq_sym (Hpos s1 Ps)) R2) as Q2. injection Q1 as ->. injection Q2 as ->.
      destruct (S n mod k =? 0)%nat; split; ring.
  Qed.
  Lemma look_seqs n : @fit xr T (at_fast grad) n (LookaheadParams p p) = Ok (LookaheadParams (F n) (S_ n), st n) /\ point_of p (F n) /\ point_of p (S_ n) /\
    forall i, (i < N)%nat -> let y := nth i (rvals (F n)) 0 - lr * nth i (rvals (grad (F n))) 0 in let z := nth i (rvals (S_ n)) 0 in
      nth i (rvals (F (S n))) 0 = (if (S n mod k =? 0)%nat then z + a * (y - z) else y) /\ nth i (rvals (S_ (S n))) 0 = (if (S n mod k =? 0)%nat then z + a * (y - z) else z).
  Proof.
    assert (Hpp : point_of p p) by (split; [split; [reflexivity|exact Wp]|exact Fp]).
    assert (E0 : @fit xr T (at_fast grad) 0 (LookaheadParams p p) = Ok (LookaheadParams p p, st 0)).
    { cbn [fit]. unfold lookahead in ET. destruct (Z.ltb_spec (Z.of_nat k) 1) as [|_]; [lia|]. injection ET as <-. unfold sgd in EB. injection EB as <-. unfold st. rewrite Nat.mod_0_l by lia. reflexivity. }
    assert (K : forall m f s, @fit xr T (at_fast grad) m (LookaheadParams p p) = Ok (LookaheadParams f s, st m) -> f = F m /\ s = S_ m) by (intros m f s E; unfold F, S_, pair_at; rewrite E; auto).
    assert (Main : forall m, @fit xr T (at_fast grad) m (LookaheadParams p p) = Ok (LookaheadParams (F m) (S_ m), st m) /\ point_of p (F m) /\ point_of p (S_ m)).
    { intros m. induction m as [|m (E & Pf & Ps)]; [destruct (K _ _ _ E0) as (<- & <-); auto|]. destruct (look_sgd_step m _ _ E Pf Ps) as (f1 & s1 & E1 & P1 & P2 & _). destruct (K _ _ _ E1) as (<- & <-). auto. }
    destruct (Main n) as (E & Pf & Ps). split; [exact E|]. split; [exact Pf|]. split; [exact Ps|]. destruct (look_sgd_step n _ _ E Pf Ps) as (f1 & s1 & E1 & P1 & P2 & Hc). destruct (K _ _ _ E1) as (-> & ->). exact Hc.
  Qed.
  Lemma pair_0 : pair_at 0 = (p, p).
  Proof. destruct (look_seqs 0) as (E & _). cbn [fit] in E. unfold pair_at. cbn [fit]. destruct (@init xr T (LookaheadParams p p)) as [s|]; [reflexivity|discriminate]. Qed.
  Lemma same_vals x y : point_of p x -> point_of p y -> (forall i, (i < N)%nat -> nth i (rvals x) 0 = nth i (rvals y) 0) -> rvals x = rvals y.
  Proof. intros Hx Hy H. apply (nth_ext _ _ 0 0); [transitivity N; [now apply rvals_length|symmetry; now apply rvals_length]|]. intros i Hi. apply H. unfold N. now rewrite <- (rvals_length p x Wp Hx). Qed.
  Lemma synced m : rvals (F (m * k)) = rvals (S_ (m * k)).
  Proof.
    destruct m as [|m]; [unfold F, S_; cbn [Nat.mul]; rewrite pair_0; reflexivity|]. replace (S m * k)%nat with (S (m * k + (k - 1))) by lia. set (n := (m * k + (k - 1))%nat).
    assert (Em : (S n mod k =? 0)%nat = true). { apply Nat.eqb_eq. replace (S n) with (S m * k)%nat by (unfold n; lia). now apply Nat.mod_mul; lia. }
    destruct (look_seqs (S n)) as (_ & P1 & P2 & _). destruct (look_seqs n) as (_ & _ & _ & Hc). apply same_vals; [exact P1|exact P2|]. intros i Hi. destruct (Hc i Hi) as (-> & ->). rewrite Em. reflexivity.
  Qed.
  (** One cycle: k steps of sgd from the slow parameters, then the slow parameters move by a towards the result. *)
  Lemma cycle m : exists Y : nat -> tree (gt XR), rvals (Y 0%nat) = rvals (S_ (m * k)) /\ (forall j, (j <= k)%nat -> point_of p (Y j)) /\
    (forall j i, (j < k)%nat -> (i < N)%nat -> nth i (rvals (Y (S j))) 0 = nth i (rvals (Y j)) 0 - lr * nth i (rvals (grad (Y j))) 0) /\
    forall i, (i < N)%nat -> nth i (rvals (S_ (S m * k))) 0 = (1 - a) * nth i (rvals (S_ (m * k))) 0 + a * nth i (rvals (Y k)) 0.
  Proof.
    set (n := (m * k + (k - 1))%nat). destruct (look_seqs n) as (_ & Pf & Ps & Hc). destruct (gd_point (F n) Pf) as (z & Pz & Hz).
    assert (Hmod : forall j, (j < k - 1)%nat -> (S (m * k + j) mod k =? 0)%nat = false). { intros j Hj. apply Nat.eqb_neq. replace (S (m * k + j)) with (S j + m * k)%nat by lia. rewrite Nat.mod_add by lia. rewrite Nat.mod_small by lia. lia. }
    assert (Es : forall j, (j <= k - 1)%nat -> rvals (S_ (m * k + j)) = rvals (S_ (m * k))).
    { induction j as [|j IH]; intros Hj; [now rewrite Nat.add_0_r|]. rewrite <- IH by lia. rewrite Nat.add_succ_r. destruct (look_seqs (m * k + j)) as (_ & _ & P1 & Hc1). destruct (look_seqs (S (m * k + j))) as (_ & _ & P2 & _). apply same_vals; [exact P2|exact P1|]. intros i Hi. destruct (Hc1 i Hi) as (_ & ->). rewrite Hmod by lia. reflexivity. }
    exists (fun j => if (j =? k)%nat then z else F (m * k + j)). split; [|split; [|split]].
    - destruct (Nat.eqb_spec 0 k) as [|_]; [lia|]. rewrite Nat.add_0_r. apply synced.
    - intros j Hj. destruct (j =? k)%nat; [exact Pz|apply (look_seqs (m * k + j))].
    - intros j i Hj Hi. destruct (Nat.eqb_spec j k) as [|_]; [lia|]. destruct (Nat.eqb_spec (S j) k) as [Ej|Nj].
      + replace (m * k + j)%nat with n by (unfold n; lia). apply Hz, Hi.
      + rewrite Nat.add_succ_r. destruct (look_seqs (m * k + j)) as (_ & _ & _ & Hc1). destruct (Hc1 i Hi) as (-> & _). rewrite Hmod by lia. reflexivity.
    - intros i Hi. rewrite Nat.eqb_refl. rewrite (Hz i Hi). replace (S m * k)%nat with (S n) by (unfold n; lia). destruct (Hc i Hi) as (_ & ->).
      assert (Em : (S n mod k =? 0)%nat = true). { apply Nat.eqb_eq. replace (S n) with (S m * k)%nat by (unfold n; lia). now apply Nat.mod_mul; lia. }
      rewrite Em. rewrite <- (Es (k - 1)%nat (le_n _)). fold n. ring.
  Qed.

  (** Facts about k gradient steps. *)
  Variables (f : list R -> R) (Ls : R).
  Hypotheses (Hlr : 0 < lr) (HLs : lr * Ls <= 1) (Hsm : smooth p f grad Ls).
  Section Steps.
    Variable Y : nat -> tree (gt XR).
    Hypotheses (HY : forall j, (j <= k)%nat -> point_of p (Y j)) (Hst : forall j i, (j < k)%nat -> (i < N)%nat -> nth i (rvals (Y (S j))) 0 = nth i (rvals (Y j)) 0 - lr * nth i (rvals (grad (Y j))) 0).
    Lemma LY j : (j <= k)%nat -> length (rvals (Y j)) = N.
    Proof. intros Hj. apply rvals_length; auto. Qed.
    Lemma LG j : (j <= k)%nat -> length (rvals (grad (Y j))) = N.
    Proof. intros Hj. apply rvals_length; auto. Qed.
    Lemma gd_down j : (j < k)%nat -> f (rvals (Y (S j))) <= f (rvals (Y j)) - lr / 2 * sumsq (rvals (grad (Y j))).
    Proof.
      intros Hj. pose proof (Hsm (Y j) (Y (S j)) (HY j ltac:(lia)) (HY (S j) Hj)) as H.
      assert (E1 : dot (rvals (grad (Y j))) (vsub (rvals (Y (S j))) (rvals (Y j))) = - lr * sumsq (rvals (grad (Y j)))).
      { rewrite (dot_vsub _ _ _ N), (sumsq_seq _ N) by (apply LY || apply LG; lia). rewrite <- rsum_map_scal. apply rsum_map_ext. intros i Hi. apply in_seq in Hi. rewrite Hst by lia. ring. }
      assert (E2 : sumsq (vsub (rvals (Y (S j))) (rvals (Y j))) = lr * lr * sumsq (rvals (grad (Y j)))).
      { rewrite (sumsq_vsub _ _ N), (sumsq_seq _ N) by (apply LY || apply LG; lia). rewrite <- rsum_map_scal. apply rsum_map_ext. intros i Hi. apply in_seq in Hi. rewrite Hst by lia. ring. }
      rewrite E1, E2 in H. set (s := sumsq (rvals (grad (Y j)))) in *. assert (0 <= s) by apply sumsq_nonneg. assert (lr * Ls * (lr * s) <= 1 * (lr * s)) by (apply Rmult_le_compat_r; [nra|exact HLs]). nra.
    Qed.
    Lemma gd_dist j q : (j < k)%nat -> length q = N -> sumsq (vsub (rvals (Y (S j))) q) = sumsq (vsub (rvals (Y j)) q) - 2 * lr * dot (rvals (grad (Y j))) (vsub (rvals (Y j)) q) + lr * lr * sumsq (rvals (grad (Y j))).
    Proof.
      intros Hj Lq. rewrite (sumsq_vsub _ q N), (sumsq_vsub (rvals (Y j)) q N), (dot_vsub _ _ _ N), (sumsq_seq _ N) by (assumption || apply LY || apply LG; lia).
      rewrite <- !rsum_map_scal, <- rsum_map_sub, <- rsum_map_add. apply rsum_map_ext. intros i Hi. apply in_seq in Hi. rewrite Hst by lia. ring.
    Qed.
    (** Strong convexity m >= 0 (0: plain convexity). *)
    Lemma gd_near m j q : strongly_convex p f grad m -> (j < k)%nat -> length q = N -> sumsq (vsub (rvals (Y (S j))) q) <= (1 - lr * m) * sumsq (vsub (rvals (Y j)) q) - 2 * lr * (f (rvals (Y (S j))) - f q).
    Proof.
      intros Hc Hj Lq. rewrite (gd_dist j q Hj Lq). pose proof (Hc (Y j) q (HY j ltac:(lia)) Lq) as H. rewrite (dot_vsub_anti _ _ _ N) in H by (assumption || apply LY || apply LG; lia).
      assert (Es : sumsq (vsub q (rvals (Y j))) = sumsq (vsub (rvals (Y j)) q)). { rewrite (sumsq_vsub _ _ N), (sumsq_vsub (rvals (Y j)) q N) by (assumption || apply LY; lia). apply rsum_map_ext. intros. ring. }
      rewrite Es in H. pose proof (gd_down j Hj) as D. set (s := sumsq (rvals (grad (Y j)))) in *. set (d := dot _ _) in *. set (w := sumsq (vsub (rvals (Y j)) q)) in *. nra.
    Qed.
    Lemma gd_sum q : subgradients p f grad -> length q = N -> forall j, (j <= k)%nat -> 2 * lr * INR j * (f (rvals (Y j)) - f q) + sumsq (vsub (rvals (Y j)) q) <= sumsq (vsub (rvals (Y 0%nat)) q).
    Proof.
      intros Hc Lq. assert (Hs : strongly_convex p f grad 0) by (intros x y Hx Ly; pose proof (Hc x y Hx Ly); lra). induction j as [|j IH]; intros Hj; [cbn [INR]; lra|].
      specialize (IH ltac:(lia)). pose proof (gd_near 0 j q Hs Hj Lq) as H. pose proof (gd_down j Hj) as D. rewrite S_INR. pose proof (sumsq_nonneg (rvals (grad (Y j)))). pose proof (pos_INR j).
      assert (f (rvals (Y (S j))) <= f (rvals (Y j))) by nra. assert (lr * INR j * (f (rvals (Y (S j))) - f q) <= lr * INR j * (f (rvals (Y j)) - f q)) by (apply Rmult_le_compat_l; nra). nra.
    Qed.
    Lemma gd_mono j : (j <= k)%nat -> f (rvals (Y j)) <= f (rvals (Y 0%nat)).
    Proof. induction j as [|j IH]; intros Hj; [lra|]. pose proof (gd_down j Hj). pose proof (sumsq_nonneg (rvals (grad (Y j)))). specialize (IH ltac:(lia)). nra. Qed.
    Lemma gd_pow m q : strongly_convex p f grad m -> lr * m <= 1 -> length q = N -> (forall y, length y = N -> f q <= f y) -> forall j, (j <= k)%nat -> sumsq (vsub (rvals (Y j)) q) <= (1 - lr * m) ^ j * sumsq (vsub (rvals (Y 0%nat)) q).
    Proof.
      intros Hc Hm Lq Hq. induction j as [|j IH]; intros Hj; [cbn [pow]; lra|]. specialize (IH ltac:(lia)). pose proof (gd_near m j q Hc Hj Lq) as H. specialize (Hq (rvals (Y (S j))) (LY (S j) Hj)).
      cbn [pow]. assert ((1 - lr * m) * sumsq (vsub (rvals (Y j)) q) <= (1 - lr * m) * ((1 - lr * m) ^ j * sumsq (vsub (rvals (Y 0%nat)) q))) by (apply Rmult_le_compat_l; lra). nra.
    Qed.
  End Steps.
  Hypotheses (Ha : 0 <= a <= 1).
  Let X m := rvals (S_ (m * k)).
  Lemma LX m : length (X m) = N.
  Proof. apply rvals_length; [exact Wp|]. apply look_seqs. Qed.
  Lemma blend_dist q u v w : length q = N -> length u = N -> length v = N -> length w = N -> (forall i, (i < N)%nat -> nth i u 0 = (1 - a) * nth i v 0 + a * nth i w 0) -> sumsq (vsub u q) <= (1 - a) * sumsq (vsub v q) + a * sumsq (vsub w q).
  Proof.
    intros Lq Lu Lv Lw Hu. rewrite (sumsq_vsub u q N), (sumsq_vsub v q N), (sumsq_vsub w q N), <- !rsum_map_scal, <- rsum_map_add by assumption. apply rsum_map_le. intros i Hi. apply in_seq in Hi. rewrite Hu by lia.
    set (x := nth i v 0). set (y := nth i w 0). set (z := nth i q 0). assert (0 <= a * (1 - a) * ((x - y) * (x - y))) by (apply Rmult_le_pos; [nra|apply Rle_0_sqr]). nra.
  Qed.
  Lemma blend_f (u : tree (gt XR)) v w : subgradients p f grad -> point_of p u -> length v = N -> length w = N -> (forall i, (i < N)%nat -> nth i (rvals u) 0 = (1 - a) * nth i v 0 + a * nth i w 0) -> f (rvals u) <= (1 - a) * f v + a * f w.
  Proof.
    intros Hc Pu Lv Lw Hu. pose proof (Hc u v Pu Lv) as H1. pose proof (Hc u w Pu Lw) as H2. assert (Lu : length (rvals u) = N) by now apply rvals_length. assert (Lg : length (rvals (grad u)) = N) by (apply rvals_length; auto).
    assert (E : (1 - a) * dot (rvals (grad u)) (vsub v (rvals u)) + a * dot (rvals (grad u)) (vsub w (rvals u)) = 0).
    { rewrite !(dot_vsub _ _ _ N) by assumption. rewrite <- !rsum_map_scal, <- rsum_map_add. rewrite (rsum_map_ext _ (fun _ : nat => 0)); [rewrite rsum_map_const; ring|]. intros i Hi. apply in_seq in Hi. rewrite Hu by lia. ring. }
    assert ((1 - a) * (f (rvals u) + dot (rvals (grad u)) (vsub v (rvals u))) <= (1 - a) * f v) by (apply Rmult_le_compat_l; lra). assert (a * (f (rvals u) + dot (rvals (grad u)) (vsub w (rvals u))) <= a * f w) by (apply Rmult_le_compat_l; lra). nra.
  Qed.
  (** Convex and smooth. *)
  Lemma look_convex_step m : subgradients p f grad -> f (X (S m)) <= f (X m) /\ forall q, length q = N -> exists e,
    f (X (S m)) - f q <= (1 - a) * (f (X m) - f q) + a * e /\ 2 * lr * INR k * (a * e) + sumsq (vsub (X (S m)) q) <= sumsq (vsub (X m) q).
  Proof.
    intros Hc. destruct (cycle m) as (Y & E0 & HY & Hst & Hend). fold (X m) in E0. assert (LYk : length (rvals (Y k)) = N) by (apply LY; auto).
    assert (HB : f (X (S m)) <= (1 - a) * f (X m) + a * f (rvals (Y k))) by (apply blend_f; auto; [apply look_seqs|apply LX]).
    pose proof (gd_mono Y HY Hst k (le_n _)) as M. rewrite E0 in M. split; [assert (a * f (rvals (Y k)) <= a * f (X m)) by (apply Rmult_le_compat_l; lra); lra|].
    intros q Lq. exists (f (rvals (Y k)) - f q). split; [lra|]. pose proof (gd_sum Y HY Hst q Hc Lq k (le_n _)) as G. rewrite E0 in G. pose proof (blend_dist q (X (S m)) (X m) (rvals (Y k)) Lq (LX _) (LX _) LYk Hend) as D.
    apply (Rmult_le_compat_l a) in G; [|lra]. nra.
  Qed.
  Lemma look_convex m q : subgradients p f grad -> length q = N -> f (X m) - f q <= (f (rvals p) - f q + sumsq (vsub (rvals p) q) / (2 * lr * INR k)) / (1 + a * INR m).
  Proof.
    intros Hc Lq. assert (Hk' : 0 < INR k) by (apply lt_0_INR; lia). assert (Hc2 : 0 < 2 * lr * INR k) by nra. set (c := 2 * lr * INR k) in *.
    assert (E0 : X 0 = rvals p) by (unfold X, S_; cbn [Nat.mul]; rewrite pair_0; reflexivity).
    assert (K : forall j, c * ((1 + a * INR j) * (f (X j) - f q)) + sumsq (vsub (X j) q) <= c * (f (X 0%nat) - f q) + sumsq (vsub (X 0%nat) q)).
    { induction j as [|j IH]; [cbn [INR]; lra|]. destruct (look_convex_step j Hc) as (M & H). destruct (H q Lq) as (e & H1 & H2). fold c in H2. rewrite S_INR. pose proof (pos_INR j).
      assert (a * INR j * (f (X (S j)) - f q) <= a * INR j * (f (X j) - f q)) by (apply Rmult_le_compat_l; [nra|lra]). assert (a * (f (X (S j)) - f q) <= a * (f (X j) - f q)) by (apply Rmult_le_compat_l; lra).
      assert (D : (1 + a * (INR j + 1)) * (f (X (S j)) - f q) <= (1 + a * INR j) * (f (X j) - f q) + a * e) by lra. apply (Rmult_le_compat_l c) in D; [|lra]. lra. }
    specialize (K m). rewrite E0 in K. pose proof (sumsq_nonneg (vsub (X m) q)). pose proof (pos_INR m). assert (0 < 1 + a * INR m) by nra.
    apply Rmult_le_reg_r with (c * (1 + a * INR m)); [nra|]. replace ((f (rvals p) - f q + sumsq (vsub (rvals p) q) / c) / (1 + a * INR m) * (c * (1 + a * INR m))) with (c * (f (rvals p) - f q) + sumsq (vsub (rvals p) q)) by (field; lra). lra.
  Qed.
  Lemma look_strong m mu q : strongly_convex p f grad mu -> lr * mu <= 1 -> length q = N -> (forall y, length y = N -> f q <= f y) -> sumsq (vsub (X m) q) <= (1 - a + a * (1 - lr * mu) ^ k) ^ m * sumsq (vsub (rvals p) q).
  Proof.
    intros Hc Hm Lq Hq. assert (E0 : X 0 = rvals p) by (unfold X, S_; cbn [Nat.mul]; rewrite pair_0; reflexivity).
    assert (0 <= (1 - lr * mu) ^ k) by (apply pow_le; lra). set (r := (1 - lr * mu) ^ k) in *. induction m as [|m IH]; [cbn [pow]; rewrite E0; lra|].
    destruct (cycle m) as (Y & EY & HY & Hst & Hend). fold (X m) in EY. assert (LYk : length (rvals (Y k)) = N) by (apply LY; auto). pose proof (gd_pow Y HY Hst mu q Hc Hm Lq Hq k (le_n _)) as G. rewrite EY in G. fold r in G.
    pose proof (blend_dist q (X (S m)) (X m) (rvals (Y k)) Lq (LX _) (LX _) LYk Hend) as D. apply (Rmult_le_compat_l a) in G; [|lra]. cbn [pow]. assert (0 <= 1 - a + a * r) by nra. apply (Rmult_le_compat_l (1 - a + a * r)) in IH; [|assumption]. lra.
  Qed.
End Look.

(** After m periods of lookahead(sgd(lr), k, a), started with both copies at p, fast and slow parameters agree and are [X m]. *)
Definition look_run `{P : Platform} (lr a : R) (k : nat) (p : tree (gt XR)) (grad : tree (gt XR) -> tree (gt XR)) (X : nat -> list R) : Prop :=
  exists B T, @sgd (XROps P) (LConst (Fin lr)) None false = Ok B /\ @lookahead (XROps P) B (Z.of_nat k) (Fin a) false = Ok T /\
    forall n, exists fast slow s, @fit (XROps P) T (at_fast grad) n (LookaheadParams p p) = Ok (LookaheadParams fast slow, s) /\ point_of p fast /\ point_of p slow /\
      rvals slow = X (n / k)%nat /\ forall m, n = (m * k)%nat -> rvals fast = X m.
Lemma look_run_ok `{P : Platform} (lr a : R) (k : nat) p grad : (1 <= k)%nat -> (Z.of_nat k < 2 ^ 31)%Z -> trwf p -> finite_tree p -> (forall x, point_of p x -> point_of p (grad x)) ->
  exists B T, @sgd (XROps P) (LConst (Fin lr)) None false = Ok B /\ @lookahead (XROps P) B (Z.of_nat k) (Fin a) false = Ok T /\ look_run lr a k p grad (fun m => rvals (snd (pair_at p grad T (m * k)))).
Proof.
  intros Hk Hk2 Wp Fp Hg. destruct (sgd_exists (@LConst (XROps P) (Fin lr))) as (B & EB). exists B. eexists (match @lookahead (XROps P) B (Z.of_nat k) (Fin a) false with Ok T => T | Err _ => B end).
  assert (ET : exists T, @lookahead (XROps P) B (Z.of_nat k) (Fin a) false = Ok T) by (unfold lookahead; destruct (Z.ltb_spec (Z.of_nat k) 1) as [|_]; [lia|]; eexists; reflexivity). destruct ET as (T & ET). rewrite ET. split; [exact EB|]. split; [reflexivity|].
  exists B, T. split; [exact EB|]. split; [exact ET|]. intros n. destruct (look_seqs lr a k p grad B T Hk Hk2 Wp Fp EB ET Hg n) as (E & P1 & P2 & _). do 3 eexists. split; [exact E|]. split; [exact P1|]. split; [exact P2|]. split.
  - assert (Es : forall j, (j < k)%nat -> rvals (snd (pair_at p grad T (n / k * k + j))) = rvals (snd (pair_at p grad T (n / k * k)))).
    { induction j as [|j IH]; intros Hj; [now rewrite Nat.add_0_r|]. rewrite <- IH by lia. rewrite Nat.add_succ_r. destruct (look_seqs lr a k p grad B T Hk Hk2 Wp Fp EB ET Hg (n / k * k + j)) as (_ & _ & Q1 & Hc1). destruct (look_seqs lr a k p grad B T Hk Hk2 Wp Fp EB ET Hg (S (n / k * k + j))) as (_ & _ & Q2 & _).
      apply (same_vals p Wp); [exact Q2|exact Q1|]. intros i Hi. destruct (Hc1 i Hi) as (_ & ->). assert (Em : (S (n / k * k + j) mod k =? 0)%nat = false). { apply Nat.eqb_neq. replace (S (n / k * k + j)) with (S j + n / k * k)%nat by lia. rewrite Nat.mod_add by lia. rewrite Nat.mod_small by lia. lia. } rewrite Em. reflexivity. }
    pose proof (Nat.div_mod n k ltac:(lia)) as En. rewrite <- (Es (n mod k)) by (apply Nat.mod_upper_bound; lia). f_equal. f_equal. f_equal. lia.
  - intros m ->. exact (synced lr a k p grad B T Hk Hk2 Wp Fp EB ET Hg m).
Qed.

(*@ C93_convex : lookahead(sgd(lr), k, a) minimising a convex L-smooth function, lr L <= 1, 0 <= a <= 1: no step fails, the slow parameters change only every k-th step, they never get worse, and after m periods the loss exceeds f(q) by at most (f(x_0) - f(q) + |x_0 - q|^2 / (2 lr k)) / (1 + a m), for every q. *)
Lemma look_converges : forall `{P : Platform} (lr a L : R) (k : nat) (p : tree tensor) (grad : tree tensor -> tree tensor) (f : list R -> R),
  0 < lr -> lr * L <= 1 -> 0 <= a <= 1 -> (1 <= k)%nat -> (Z.of_nat k < 2 ^ 31)%Z -> trwf p -> finite_tree p -> (forall x, point_of p x -> point_of p (grad x)) -> smooth p f grad L -> subgradients p f grad ->
  exists X, look_run lr a k p grad X /\ X 0%nat = rvals p /\ (forall m, f (X (S m)) <= f (X m)) /\
    forall m q, length q = length (rvals p) -> f (X m) - f q <= (f (rvals p) - f q + sumsq (vsub (rvals p) q) / (2 * lr * INR k)) / (1 + a * INR m).
Proof.
  intros P lr a L k p grad f Hlr HL Ha Hk Hk2 Wp Fp Hg Hsm Hc. destruct (look_run_ok lr a k p grad Hk Hk2 Wp Fp Hg) as (B & T & EB & ET & HX). eexists. split; [exact HX|]. cbv beta. split; [cbn [Nat.mul]; rewrite (pair_0 lr a k p grad B T Hk Hk2 Wp Fp EB ET Hg); reflexivity|]. split.
  - intros m. apply (look_convex_step lr a k p grad B T Hk Hk2 Wp Fp EB ET Hg f L Hlr HL Hsm Ha m Hc).
  - intros m q Lq. exact (look_convex lr a k p grad B T Hk Hk2 Wp Fp EB ET Hg f L Hlr HL Hsm Ha m q Hc Lq).
Qed.

(*@ C93_strongly_convex : if f is moreover mu-strongly convex with minimiser q, the squared distance of the slow parameters to q shrinks at least by the factor 1 - a + a (1 - lr mu)^k per period. *)
Lemma look_linear : forall `{P : Platform} (lr a L mu : R) (k : nat) (p : tree tensor) (grad : tree tensor -> tree tensor) (f : list R -> R) (q : list R),
  0 < lr -> lr * L <= 1 -> 0 <= a <= 1 -> lr * mu <= 1 -> (1 <= k)%nat -> (Z.of_nat k < 2 ^ 31)%Z -> trwf p -> finite_tree p -> (forall x, point_of p x -> point_of p (grad x)) -> smooth p f grad L -> strongly_convex p f grad mu ->
  length q = length (rvals p) -> (forall y, length y = length (rvals p) -> f q <= f y) ->
  exists X, look_run lr a k p grad X /\ forall m, sumsq (vsub (X m) q) <= (1 - a + a * (1 - lr * mu) ^ k) ^ m * sumsq (vsub (rvals p) q).
Proof.
  intros P lr a L mu k p grad f q Hlr HL Ha Hm Hk Hk2 Wp Fp Hg Hsm Hc Lq Hq. destruct (look_run_ok lr a k p grad Hk Hk2 Wp Fp Hg) as (B & T & EB & ET & HX). eexists. split; [exact HX|]. intros m. cbv beta.
  exact (look_strong lr a k p grad B T Hk Hk2 Wp Fp EB ET Hg f L Hlr HL Hsm Ha m mu q Hc Hm Lq Hq).
Qed.

(*@ C93_quadratic : on a quadratic with curvatures lam_i around q, for ALL learning rates and step sizes a: after m periods coordinate i of the slow parameters is q_i + (1 - a + a (1 - lr lam_i)^k)^m (p_i - q_i) exactly. *)
Lemma look_quadratic : forall `{P : Platform} (lr a : R) (k : nat) (p : tree tensor) (grad : tree tensor -> tree tensor) (lam : nat -> R) (q : list R),
  (1 <= k)%nat -> (Z.of_nat k < 2 ^ 31)%Z -> trwf p -> finite_tree p -> (forall x, point_of p x -> point_of p (grad x) /\ forall i, (i < length (rvals p))%nat -> nth i (rvals (grad x)) 0 = lam i * (nth i (rvals x) 0 - nth i q 0)) ->
  exists X, look_run lr a k p grad X /\ forall m i, (i < length (rvals p))%nat -> nth i (X m) 0 = nth i q 0 + (1 - a + a * (1 - lr * lam i) ^ k) ^ m * (nth i (rvals p) 0 - nth i q 0).
Proof.
  intros P lr a k p grad lam q Hk Hk2 Wp Fp Hgl. assert (Hg : forall x, point_of p x -> point_of p (grad x)) by (intros x Hx; apply (Hgl x Hx)). destruct (look_run_ok lr a k p grad Hk Hk2 Wp Fp Hg) as (B & T & EB & ET & HX). eexists. split; [exact HX|]. intros m i Hi. cbv beta.
  induction m as [|m IH]; [cbn [Nat.mul pow]; rewrite (pair_0 lr a k p grad B T Hk Hk2 Wp Fp EB ET Hg); cbn [snd]; ring|].
  destruct (cycle lr a k p grad B T Hk Hk2 Wp Fp EB ET Hg m) as (Y & E0 & HY & Hst & Hend). rewrite (Hend i Hi), IH.
  assert (K : forall j, (j <= k)%nat -> nth i (rvals (Y j)) 0 - nth i q 0 = (1 - lr * lam i) ^ j * (nth i (rvals (Y 0%nat)) 0 - nth i q 0)).
  { induction j as [|j IHj]; intros Hj; [cbn [pow]; ring|]. rewrite (Hst j i Hj Hi). destruct (Hgl (Y j) (HY j ltac:(lia))) as (_ & Hl). rewrite (Hl i Hi). cbn [pow]. specialize (IHj ltac:(lia)). rewrite Rmult_assoc, <- IHj. ring. }
  specialize (K k (le_n _)). rewrite E0, IH in K. replace (nth i (rvals (Y k)) 0) with (nth i q 0 + (nth i (rvals (Y k)) 0 - nth i q 0)) by ring. rewrite K. cbn [pow]. ring.
Qed.
(*@ex C93_example *)
Lemma look2_example : forall `{P : Platform}, let p := Leaf (mkT F32 [2%nat] [Fin 5; Fin 1]) in
  trwf p /\ finite_tree p /\ (forall x, point_of p x -> point_of p (quad_grad x)) /\ smooth p quad quad_grad 1 /\ strongly_convex p quad quad_grad 1 /\ (forall y, length y = 2%nat -> quad [3; 3] <= quad y) /\
  (exists X, look_run (1/2) (1/2) 5 p quad_grad X /\ forall m, quad (X m) <= (4 + 8 / 5) / (1 + INR m / 2)) /\
  (exists X, look_run 3 1 1 p quad_grad X /\ forall m, nth 0 (X m) 0 = 3 + (-2) ^ m * 2) /\
  (exists X, look_run 3 (1/20) 5 p quad_grad X /\ forall m, nth 0 (X m) 0 = 3 + (-13/20) ^ m * 2) /\
  (exists X, look_run 3 (1/20) 6 p quad_grad X /\ forall m, nth 0 (X m) 0 = 3 + (83/20) ^ m * 2).
Proof.
  intros P. cbn zeta. set (p := Leaf (mkT F32 [2%nat] [Fin 5; Fin 1])). assert (Wp : trwf p) by (repeat constructor). assert (Fp : finite_tree p) by (repeat constructor; eexists; reflexivity).
  split; [exact Wp|]. split; [exact Fp|]. split; [apply quad_ok|]. split; [now apply quad_smooth|]. split.
  { intros x y Hx Ly. rewrite quad_grad_vals by apply Hx. rewrite (quad_taylor (rvals x) y) by (rewrite Ly; symmetry; now apply rvals_length). lra. }
  assert (Eq : quad [3; 3] = 0) by (unfold quad; cbn [map]; rewrite !rsum_cons, rsum_nil; lra).
  split. { intros y _. rewrite Eq. unfold quad. apply Rle_trans with (rsum (map (fun _ => 0) y)); [rewrite rsum_map_const; lra|]. apply rsum_map_le. intros v _. pose proof (Rle_0_sqr (v - 3)) as H. unfold Rsqr in H. lra. }
  assert (HQ : forall (a : R) (k : nat), (1 <= k)%nat -> (Z.of_nat k < 2 ^ 31)%Z -> exists X, look_run 3 a k p quad_grad X /\ forall m, nth 0 (X m) 0 = 3 + (1 - a + a * (-2) ^ k) ^ m * 2).
  { intros a k Hk Hk2. destruct (@look_quadratic P 3 a k p quad_grad (fun _ => 1) [3; 3] Hk Hk2 Wp Fp) as (X & HX & H).
    - intros x Hx. split; [now apply quad_ok|]. intros i Hi. rewrite quad_grad_vals by apply Hx. rewrite (nth_indep _ 0 (0 - 3)) by (rewrite map_length, (rvals_length p x Wp Hx); exact Hi). rewrite (map_nth (fun v => v - 3)). change (length (rvals p)) with 2%nat in Hi. destruct i as [|[|i]]; [cbn [nth]; ring|cbn [nth]; ring|lia].
    - exists X. split; [exact HX|]. intros m. rewrite (H m 0%nat) by (change (length (rvals p)) with 2%nat; lia). change (rvals p) with [5; 1]. cbn [nth]. replace (1 - 3 * 1) with (-2) by ring. ring. }
  split; [|split; [|split]].
  - destruct (@look_converges P (1/2) (1/2) 1 5 p quad_grad quad) as (X & HX & _ & _ & H); [lra|lra|lra|lia|lia|exact Wp|exact Fp|apply quad_ok|now apply quad_smooth|now apply quad_sub|]. exists X. split; [exact HX|]. intros m. specialize (H m [3; 3] eq_refl). rewrite Eq in H.
    assert (E1 : quad (rvals p) = 4) by (change (rvals p) with [5; 1]; unfold quad; cbn [map]; rewrite !rsum_cons, rsum_nil; lra). assert (E2 : sumsq (vsub (rvals p) [3; 3]) = 8). { change (rvals p) with [5; 1]. unfold vsub. cbn [map combine fst snd]. rewrite !sumsq_cons. change (sumsq []) with (rsum []). rewrite rsum_nil. lra. }
    rewrite E1, E2 in H. replace (INR 5) with 5 in H by (cbn; lra). replace (4 - 0 + 8 / (2 * (1 / 2) * 5)) with (4 + 8 / 5) in H by lra. replace (1 + 1 / 2 * INR m) with (1 + INR m / 2) in H by lra. lra.
  - destruct (HQ 1 1%nat ltac:(lia) ltac:(lia)) as (X & HX & H). exists X. split; [exact HX|]. intros m. rewrite H. replace (1 - 1 + 1 * (-2) ^ 1) with (-2) by ring. reflexivity.
  - destruct (HQ (1/20) 5%nat ltac:(lia) ltac:(lia)) as (X & HX & H). exists X. split; [exact HX|]. intros m. rewrite H. replace (1 - 1 / 20 + 1 / 20 * (-2) ^ 5) with (-13/20) by (cbn [pow]; field). reflexivity.
  - destruct (HQ (1/20) 6%nat ltac:(lia) ltac:(lia)) as (X & HX & H). exists X. split; [exact HX|]. intros m. rewrite H. replace (1 - 1 / 20 + 1 / 20 * (-2) ^ 6) with (83/20) by (cbn [pow]; field). reflexivity.
Qed.
