(** Counters, chain, clipping, constraints, parameter updates, element independence. *)
From Verif Require Export P_optim TreeMore.
From Coq Require Import Psatz Qreals.
Open Scope R_scope.
(*@header
Open Scope R_scope.
*)

(** ** C01 *)
(*@ C01_safe_int32_increment : For every int32 value the increment is c+1 below 2^31-1 and 2^31-1 at 2^31-1: no wrap-around. *)
Lemma inc_value : forall c, (- 2 ^ 31 <= c <= 2 ^ 31 - 1)%Z ->
  safe_int32_increment I32 c = Ok (if (c <? 2 ^ 31 - 1)%Z then c + 1 else 2 ^ 31 - 1)%Z.
Proof.
  intros c Hc. rewrite safe_inc_spec by exact Hc. f_equal. change int32_max with (2 ^ 31 - 1)%Z.
  destruct (Z.ltb_spec c (2 ^ 31 - 1)); lia.
Qed.

Fixpoint increments (n : nat) (c : Z) : result Z :=
  match n with O => Ok c | S m => let* c' := increments m c in safe_int32_increment I32 c' end.
(*@ C01_counter_never_wraps : A counter started at 0 and incremented n times is min(n, 2^31-1), for every n: it never decreases and never becomes negative. *)
Lemma inc_iter : forall n, increments n 0 = Ok (Z.min (Z.of_nat n) (2 ^ 31 - 1))%Z.
Proof.
  induction n as [|n IH]; [reflexivity|]. cbn [increments]. rewrite IH. cbn [rbind].
  rewrite inc_value by lia. f_equal. destruct (Z.ltb_spec (Z.min (Z.of_nat n) (2 ^ 31 - 1)) (2 ^ 31 - 1)); lia.
Qed.
(*@ C01_other_dtypes_rejected : A counter of another integer dtype is rejected by an assertion. *)
Lemma inc_dtype : forall c, safe_int32_increment I64 c = Err EAssert.
Proof. reflexivity. Qed.
(*@ex C01_example *)
Lemma inc_example : safe_int32_increment I32 2147483647 = Ok 2147483647%Z /\ safe_int32_increment I32 41 = Ok 42%Z.
Proof. split; reflexivity. Qed.

(** ** C03 *)
Definition feed {A B} (mid : list A) (H : list (A * B)) : list (A * B) := combine mid (map snd H).

Lemma chain_init_length `{O : Ops} ts p ss : chain_init ts p = Ok ss -> length ss = length ts.
Proof.
  revert ss; induction ts as [|t ts IH]; intros ss; cbn; [now intros [= <-]|].
  destruct (init t p); cbn; [|discriminate]. destruct (chain_init ts p) as [q|]; cbn; [|discriminate].
  intros [= <-]. cbn. f_equal. now apply IH.
Qed.
Lemma chain_update_length `{O : Ops} ts ss u p u' ss' : length ss = length ts ->
  chain_update ts ss u p = Ok (u', ss') -> length ss' = length ts.
Proof.
  revert ss u ss'; induction ts as [|t ts IH]; intros [|s ss] u ss' Hl; cbn in *; try discriminate.
  - now intros [= <- <-].
  - destruct (update t u s p) as [[u1 s1]|]; cbn; [|discriminate].
    destruct (chain_update ts ss u1 p) as [[u2 ss2]|] eqn:E; cbn; [|discriminate].
    intros [= <- <-]. cbn. f_equal. eapply IH; [|exact E]. lia.
Qed.

Lemma chain_run `{O : Ops} t ts s ss H outs sf : length ss = length ts ->
  run (chain_gt (t :: ts)) (SNode NList (s :: ss)) H = Ok (outs, sf) <->
  exists mid s' ss', run t s H = Ok (mid, s') /\
    run (chain_gt ts) (SNode NList ss) (feed mid H) = Ok (outs, SNode NList ss') /\ sf = SNode NList (s' :: ss') /\ length ss' = length ts.
Proof.
  revert s ss outs; induction H as [|[u p] H IH]; intros s ss outs Hl.
  - cbn. split.
    + intros [= <- <-]. exists [], s, ss. auto.
    + intros (mid & s' & ss' & [= <- <-] & E & -> & Hl'). cbn in E. injection E as <- <-. reflexivity.
  - cbn [run update chain_gt]. cbn [length]. rewrite Hl, !Nat.eqb_refl. cbn [chain_update].
    split.
    + intros E. destruct (update t u s p) as [[u1 s1]|e] eqn:Eu; cbn [rbind] in E; [|discriminate].
      destruct (chain_update ts ss u1 p) as [[u2 ss2]|e] eqn:Ec; cbn [rbind] in E; [|discriminate].
      destruct (run (chain_gt (t :: ts)) (SNode NList (s1 :: ss2)) H) as [[os s2]|e] eqn:Er; cbn [rbind] in E; [|discriminate].
      injection E as <- <-. pose proof (chain_update_length ts ss u1 p u2 ss2 Hl Ec) as Hl2.
      apply IH in Er as (mid & s' & ss' & E1 & E2 & E3 & E4); [|assumption].
      exists (u1 :: mid), s', ss'. cbn [rbind]. rewrite E1. cbn [rbind]. split; [reflexivity|]. split; [|auto].
      unfold feed. cbn [map combine run update chain_gt snd]. rewrite Hl, Nat.eqb_refl, Ec. cbn [rbind].
      fold (feed mid H). rewrite E2. reflexivity.
    + intros (mid & s' & ss' & E1 & E2 & -> & E4).
      destruct (update t u s p) as [[u1 s1]|e] eqn:Eu; cbn [rbind] in *; [|discriminate].
      destruct (run t s1 H) as [[mid' s2]|e] eqn:Er; cbn [rbind] in E1; [|discriminate].
      injection E1 as <- <-. unfold feed in E2. cbn [map combine run update chain_gt snd] in E2.
      rewrite Hl, Nat.eqb_refl in E2.
      destruct (chain_update ts ss u1 p) as [[u2 ss2]|e] eqn:Ec; cbn [rbind] in *; [|discriminate].
      fold (feed mid' H) in E2.
      destruct (run (chain_gt ts) (SNode NList ss2) (feed mid' H)) as [[os s3]|e] eqn:Er2; cbn [rbind] in E2; [|discriminate].
      injection E2 as <- ->. pose proof (chain_update_length ts ss u1 p u2 ss2 Hl Ec) as Hl2.
      assert (Hrun : run (chain_gt (t :: ts)) (SNode NList (s1 :: ss2)) H = Ok (os, SNode NList (s2 :: ss'))).
      { apply IH; [assumption|]. exists mid', s2, ss'. auto. }
      rewrite Hrun. reflexivity.
Qed.

Lemma chain_trains `{O : Ops} t ts p H outs :
  trains (chain_gt (t :: ts)) p H outs <->
  exists mid, trains t p H mid /\ trains (chain_gt ts) p (feed mid H) outs.
Proof.
  unfold trains. cbn [init chain_gt chain_init]. split.
  - intros (s0 & s1 & Ei & Er). destruct (init t p) as [s|e]; cbn in Ei; [|discriminate].
    destruct (chain_init ts p) as [ss|e] eqn:Ec; cbn in Ei; [|discriminate]. injection Ei as <-.
    apply chain_run in Er as (mid & s' & ss' & E1 & E2 & _ & _); [|eapply chain_init_length; eauto].
    exists mid. split; eauto. exists (SNode NList ss), (SNode NList ss'). auto.
  - intros (mid & (s & s' & Ei & Er) & (ss0 & ss1 & Ec & Er2)). rewrite Ei.
    destruct (chain_init ts p) as [ss|e] eqn:Ec'; cbn in Ec; [|discriminate]. injection Ec as <-. cbn.
    pose proof (chain_init_length ts p ss Ec') as Hl.
    assert (Hs : exists ss', ss1 = SNode NList ss' /\ length ss' = length ts).
    { clear - Hl Er2. revert outs ss Hl Er2. generalize (feed mid H) as h. induction h as [|[u q] h IH]; intros outs ss Hl; cbn [run].
      - intros [= <- <-]. eauto.
      - cbn [update chain_gt]. rewrite Hl, Nat.eqb_refl.
        destruct (chain_update ts ss u q) as [[u2 ss2]|e] eqn:Ec; cbn [rbind]; [|discriminate].
        pose proof (chain_update_length ts ss u q u2 ss2 Hl Ec) as Hl2.
        destruct (run (chain_gt ts) (SNode NList ss2) h) as [[os s3]|e] eqn:Er; cbn [rbind]; [|discriminate].
        intros [= <- <-]. eapply IH; eauto. }
    destruct Hs as (ss' & -> & Hl').
    eexists (SNode NList (s :: ss)), (SNode NList (s' :: ss')). split; [reflexivity|].
    apply chain_run; [assumption|]. exists mid, s', ss'. auto.
Qed.

(*@ C03_chain_is_a_pipeline : For arbitrary transformations, params, histories: chain(t, rest...) emits outs on a history iff t emits some mid on it and chain(rest...) emits outs on mid fed with the same params. (chain of one is that transformation, next theorem.) *)
Lemma chain_pipeline : forall `{O : Ops} (t t' : GT) (ts : list GT) (c r : GT) (p : tree tensor) H outs,
  chain (t :: t' :: ts) = Ok c -> chain (t' :: ts) = Ok r ->
  (trains c p H outs <->
   exists mid, trains t p H mid /\ trains r p (combine mid (map snd H)) outs).
Proof. intros O t t' ts c r p H outs [= <-] [= <-]. apply chain_trains. Qed.

Lemma empty_chain_trains `{O : Ops} p H outs : trains (chain_gt []) p H outs <-> outs = map fst H.
Proof.
  unfold trains. cbn. assert (Hr : forall h, run (chain_gt []) (SNode NList []) h = Ok (map fst h, SNode NList [])).
  { induction h as [|[u q] h IH]; [reflexivity|]. cbn [run update chain_gt]. cbn in *. now rewrite IH. }
  split.
  - intros (s0 & s1 & [= <-] & E). rewrite Hr in E. congruence.
  - intros ->. eexists _, _. split; [reflexivity|]. apply Hr.
Qed.
Lemma map_fst_feed {A B} (mid : list A) (H : list (A * B)) : length mid = length H -> map fst (feed mid H) = mid.
Proof. intros E. unfold feed. apply map_fst_combine. now rewrite map_length. Qed.
Lemma map_snd_feed {A B} (mid : list A) (H : list (A * B)) : length mid = length H -> map snd (feed mid H) = map snd H.
Proof. intros E. unfold feed. apply map_snd_combine. now rewrite map_length. Qed.
Lemma trains_length `{O : Ops} t p H outs : trains t p H outs -> length outs = length H.
Proof. intros (s0 & s1 & _ & Hr). eapply run_length; eauto. Qed.

Lemma chain_one_gt `{O : Ops} t p H outs : trains (chain_gt [t]) p H outs <-> trains t p H outs.
Proof.
  rewrite chain_trains. split.
  - intros (mid & H1 & H2). apply empty_chain_trains in H2. rewrite map_fst_feed in H2 by (eapply trains_length; eauto). now subst.
  - intros H1. exists outs. split; [assumption|]. apply empty_chain_trains. rewrite map_fst_feed; [reflexivity|eapply trains_length; eauto].
Qed.
(*@ C03_chain_of_one : chain(t) emits exactly what t emits. *)
Lemma chain_one : forall `{O : Ops} (t c : GT) p H outs, chain [t] = Ok c -> (trains c p H outs <-> trains t p H outs).
Proof. intros O t c p H outs [= <-]. apply chain_one_gt. Qed.

Lemma chain_app_gt `{O : Ops} ts us p H outs :
  trains (chain_gt (ts ++ us)) p H outs <->
  exists mid, trains (chain_gt ts) p H mid /\ trains (chain_gt us) p (feed mid H) outs.
Proof.
  revert H outs; induction ts as [|t ts IH]; intros H outs; cbn [app].
  - split.
    + intros E. exists (map fst H). split; [now apply empty_chain_trains|].
      replace (feed (map fst H) H) with H; [assumption|]. unfold feed. clear. induction H as [|[a b] H IH]; cbn; [reflexivity|]. now rewrite <- IH.
    + intros (mid & H1 & H2). apply empty_chain_trains in H1. subst.
      replace (feed (map fst H) H) with H in H2; [assumption|]. unfold feed. clear. induction H as [|[a b] H IH]; cbn; [reflexivity|]. now rewrite <- IH.
  - rewrite chain_trains. setoid_rewrite IH. split.
    + intros (mid & H1 & mid' & H2 & H3). exists mid'. rewrite chain_trains. split; [eauto|].
      unfold feed in *. rewrite map_snd_combine in H3; [assumption|]. rewrite map_length. eapply trains_length; eauto.
    + intros (mid & H1 & H2). apply chain_trains in H1 as (m & M1 & M2). exists m. split; [assumption|].
      exists mid. split; [assumption|]. unfold feed in *. rewrite map_snd_combine; [assumption|]. rewrite map_length. eapply trains_length; eauto.
Qed.
(*@ C03_nesting_is_irrelevant : Grouping does not matter: a chain of two chains emits what the flat chain emits. *)
Lemma chain_nest : forall `{O : Ops} (a b : list GT) (ca cb c cc : GT) p H outs,
  chain a = Ok ca -> chain b = Ok cb -> chain [ca; cb] = Ok c -> chain (a ++ b) = Ok cc ->
  (trains c p H outs <-> trains cc p H outs).
Proof.
  intros O [|x a] [|y b] ca cb c cc p H outs; try discriminate. intros [= <-] [= <-] [= <-] E.
  change ((x :: a) ++ y :: b) with (x :: (a ++ y :: b)) in E. cbn [chain] in E. injection E as <-.
  change (x :: (a ++ y :: b)) with ((x :: a) ++ (y :: b)). rewrite chain_app_gt, chain_trains.
  setoid_rewrite chain_one_gt. reflexivity.
Qed.
(*@ C03_identity_is_neutral : identity anywhere in a chain changes nothing. *)
Lemma chain_identity : forall `{O : Ops} (a b : list GT) (c c' : GT) p H outs,
  chain (a ++ identity :: b) = Ok c -> chain (a ++ b) = Ok c' -> (trains c p H outs <-> trains c' p H outs).
Proof.
  intros O a b c c' p H outs E E'.
  assert (c = chain_gt (a ++ identity :: b)) as -> by (destruct a; cbn in *; congruence).
  assert (c' = chain_gt (a ++ b)) as -> by (unfold chain in E'; destruct (a ++ b); congruence).
  rewrite !chain_app_gt.
  assert (Hid : forall h o, trains (chain_gt (identity :: b)) p h o <-> trains (chain_gt b) p h o).
  { intros h o. rewrite chain_trains.
    assert (Hi : forall m, trains identity p h m <-> m = map fst h).
    { intros m. unfold trains. cbn. assert (Hr : forall h s, run identity s h = Ok (map fst h, s)).
      { clear. induction h as [|[u q] h IH]; intros s; [reflexivity|]. cbn in *. now rewrite IH. }
      split; [intros (s0 & s1 & _ & E1); rewrite Hr in E1; congruence|]. intros ->. eexists _, _. split; [reflexivity|]. apply Hr. }
    setoid_rewrite Hi.
    assert (Ef : feed (map fst h) h = h) by (unfold feed; clear; induction h as [|[x y] h IH]; cbn; congruence).
    split; [intros (m & -> & E1); now rewrite Ef in E1|]. intros E1. exists (map fst h). now rewrite Ef. }
  setoid_rewrite Hid. reflexivity.
Qed.
(*@ C03_each_slot_own_state : The state is a list with one slot per transformation: each transformation is called with the previous one's updates, its own slot and the caller's params. *)
Lemma chain_slots : forall `{O : Ops} (ts : list GT) (c : GT) u s p u' s',
  chain ts = Ok c -> update c u s p = Ok (u', s') ->
  exists nm (ss ss' : list state) (us : list (tree tensor)),
    s = SNode nm ss /\ s' = SNode NList ss' /\
    length ss = length ts /\ length ss' = length ts /\ length us = S (length ts) /\
    nth_error us 0 = Some u /\ nth_error us (length ts) = Some u' /\
    forall i t si ui, nth_error ts i = Some t -> nth_error ss i = Some si -> nth_error us i = Some ui ->
      exists uj sj, update t ui si p = Ok (uj, sj) /\ nth_error us (S i) = Some uj /\ nth_error ss' i = Some sj.
Proof.
  intros O ts c u s p u' s' Hc. assert (c = chain_gt ts) as -> by (destruct ts; cbn in Hc; congruence). clear Hc.
  cbn [update chain_gt]. destruct s as [| | | | | |nm ss]; try discriminate.
  destruct (Nat.eqb_spec (length ts) (length ss)) as [El|]; [|discriminate].
  destruct (chain_update ts ss u p) as [[u2 ss2]|e] eqn:E; cbn [rbind]; [|discriminate]. intros [= <- <-].
  exists nm, ss, ss2.
  enough (exists us, length ss2 = length ts /\ length us = S (length ts) /\ nth_error us 0 = Some u /\ nth_error us (length ts) = Some u2 /\
    forall i t si ui, nth_error ts i = Some t -> nth_error ss i = Some si -> nth_error us i = Some ui ->
      exists uj sj, update t ui si p = Ok (uj, sj) /\ nth_error us (S i) = Some uj /\ nth_error ss2 i = Some sj)
    as (us & H1 & H2 & H3 & H4 & H5) by (exists us; repeat split; auto).
  revert u ss ss2 El E; induction ts as [|t ts IH]; intros u [|s ss] ss2 El E; cbn in El, E; try discriminate.
  - injection E as <- <-. exists [u]. cbn. repeat split; auto. intros [|i]; discriminate.
  - destruct (update t u s p) as [[u1 s1]|e] eqn:Eu; cbn [rbind] in E; [|discriminate].
    destruct (chain_update ts ss u1 p) as [[u3 ss3]|e] eqn:Ec; cbn [rbind] in E; [|discriminate]. injection E as <- <-.
    destruct (IH u1 ss ss3 ltac:(lia) Ec) as (us & H1 & H2 & H3 & H4 & H5).
    exists (u :: us). cbn. repeat split; auto.
    intros [|i] t' si ui; cbn.
    + intros [= <-] [= <-] [= <-]. exists u1, s1. rewrite Eu. auto.
    + intros A B C. apply (H5 i t' si ui); assumption.
Qed.
(*@ C03_chain_builds : chain of any non-empty list of transformations succeeds, and its init succeeds exactly when every transformation's does; the initial state is the list of their initial states, in order. *)
Lemma chain_builds : forall `{O : Ops} (ts : list GT) (p : tree tensor), ts <> [] ->
  exists c, chain ts = Ok c /\ forall s, init c p = Ok s <->
    exists ss, s = SNode NList ss /\ length ss = length ts /\
      forall i t, nth_error ts i = Some t -> exists si, init t p = Ok si /\ nth_error ss i = Some si.
Proof.
  intros O ts p Hne. exists (chain_gt ts). split; [destruct ts; [easy|reflexivity]|]. intros s. cbn [init chain_gt]. clear Hne. split.
  - destruct (chain_init ts p) as [ss|e] eqn:E; cbn [rmap rbind]; [|discriminate]. intros [= <-]. exists ss. split; [reflexivity|].
    revert ss E. induction ts as [|t ts IH]; intros ss E; cbn in E; [injection E as <-; split; [reflexivity|intros [|i]; discriminate]|].
    destruct (init t p) as [s0|e] eqn:E0; cbn [rbind] in E; [|discriminate].
    destruct (chain_init ts p) as [ss'|e] eqn:E1; cbn [rbind] in E; [|discriminate]. injection E as <-.
    destruct (IH ss' eq_refl) as (L & H). split; [cbn; lia|].
    intros [|i] t0 Hi; cbn in Hi |- *; [injection Hi as <-; eauto|]. exact (H i t0 Hi).
  - intros (ss & -> & L & H). enough (E : chain_init ts p = Ok ss) by now rewrite E.
    revert ss L H. induction ts as [|t ts IH]; intros [|s0 ss] L H; cbn in L; try discriminate; [reflexivity|].
    destruct (H 0%nat t eq_refl) as (si & Ei & Es). cbn in Es. injection Es as <-. cbn [chain_init]. rewrite Ei. cbn [rbind].
    rewrite (IH ss); [reflexivity|lia|]. intros i t0 Hi. exact (H (S i) t0 Hi).
Qed.
(*@ C03_wrong_state_length_raises : A state with the wrong number of slots raises ValueError, and chain() without arguments raises. *)
Lemma chain_errors : forall `{O : Ops} (ts : list GT) (c : GT) nm ss u p,
  chain ts = Ok c -> length ts <> length ss -> update c u (SNode nm ss) p = Err EValue /\ chain ([] : list GT) = Err EValue.
Proof.
  intros O ts c nm ss u p Hc Hl. assert (c = chain_gt ts) as -> by (destruct ts; cbn in Hc; congruence).
  cbn [update chain_gt]. destruct (Nat.eqb_spec (length ts) (length ss)); [easy|]. auto.
Qed.
(*@ex C03_example *)
Lemma chain_example : forall `{P : Platform}, exists c outs,
  chain [scale (Fin 2); clip (Fin 5); trace (Fin 1) false None] = Ok c /\ trains c ex_p ex_H outs /\
  oelt outs 2 (0%nat, 1%nat) = Some (Fin 11).
Proof.
  intros P. eexists. 
  pose proof (@refines_chain (XROps P) true [scale (Fin 2); clip (Fin 5); trace (Fin 1) false None] _
    (Forall2_cons _ _ (refines_scale _) (Forall2_cons _ _ (refines_clip _) (Forall2_cons _ _ (refines_trace _ _) (Forall2_nil _))))) as HR.
  destruct (refines_trains true _ _ HR ex_p ex_H ex_p_wf (ex_H_ok true)) as (outs & Ht & _ & _ & He).
  exists outs. split; [reflexivity|]. split; [exact Ht|].
  destruct (He 2%nat (0%nat, 1%nat) (fun i => Fin (INR (S i))) (fun _ => Fin 0)) as (x & _ & E);
    [cbn; lia|exact (fun i => ex_H_elt i)|discriminate|].
  rewrite E. clear. f_equal. cbn [mchain]. unfold mout. cbn [mst mcomp m_step m_init m_fun m_trace mid fst snd].
  unfold clip_elt. cbn [fmul fadd fmin fmax fneg fcast XROps]. rewrite f0. cbn [xmul xadd xneg xmax xmin].
  f_equal. cbn [INR].
  repeat (rewrite ?Rmax_right by (try lra); rewrite ?Rmin_right by lra; rewrite ?Rmin_left by lra). lra.
Qed.

(** ** C04 *)
Lemma clip_elt_range `{P : Platform} (c : R) d (x : XR) : 0 <= c ->
  clip_elt (Fin c) d x = match x with
    | NaN => NaN | PInf => Fin c | NInf => Fin (- c)
    | Fin r => Fin (if Rle_dec r (- c) then - c else if Rle_dec c r then c else r) end.
Proof.
  intros Hc. unfold clip_elt. cbn [fmin fmax fneg fcast XROps xneg].
  destruct x as [r| | |]; cbn [xmax xmin xlt]; try reflexivity.
  - f_equal. destruct (Rle_dec r (- c)) as [H|H].
    + rewrite Rmax_left by lra. rewrite Rmin_right by lra. reflexivity.
    + rewrite Rmax_right by lra. destruct (Rle_dec c r); [rewrite Rmin_left by lra|rewrite Rmin_right by lra]; reflexivity.
  - f_equal. rewrite Rmin_right by lra. reflexivity.
Qed.
(*@ C04_clip : For every tree, clip(d), d >= 0, keeps structure, shapes, dtypes and state; every finite element x becomes x if -d <= x <= d, d if x > d, -d if x < -d (so all results lie in [-d, d]); infinities become +-d. *)
Lemma clip_spec : forall `{P : Platform} (c : R) (u : tree tensor) (st : state) par, 0 <= c -> trwf u ->
  exists u', update (clip (Fin c)) u st par = Ok (u', st) /\ like u u' /\
    (forall pos x, elt u pos = Some (Fin x) -> exists y, elt u' pos = Some (Fin y) /\ - c <= y <= c /\
       (- c <= x <= c -> y = x) /\ (c < x -> y = c) /\ (x < - c -> y = - c)) /\
    (forall pos, elt u pos = Some PInf -> elt u' pos = Some (Fin c)) /\
    (forall pos, elt u pos = Some NInf -> elt u' pos = Some (Fin (- c))).
Proof.
  intros P c u st par Hc Wu. eexists. split; [reflexivity|]. change (tmap (emap ?f) u) with (emapt f u).
  split; [split; [apply emapt_avals|now apply emapt_wf]|].
  repeat split; intros pos; [intros x|..]; intros Hx; rewrite elt_emapt, Hx; cbn [option_map]; rewrite clip_elt_range by assumption; try reflexivity.
  eexists; split; [reflexivity|]. destruct (Rle_dec x (- c)), (Rle_dec c x); repeat split; intros; lra.
Qed.
(*@ C04_clip_idempotent : Clipping what has been clipped changes nothing, whatever the elements (NaN and infinities included). *)
Lemma clip_idem : forall `{P : Platform} (c : R) (u u' : tree tensor) (st st' : state) par, 0 <= c ->
  update (clip (Fin c)) u st par = Ok (u', st') -> update (clip (Fin c)) u' st' par = Ok (u', st').
Proof.
  intros P c u u' st st' par Hc [= <- <-]. cbn [update clip stateless rbind]. do 2 f_equal.
  change (emapt (clip_elt (Fin c)) (emapt (clip_elt (Fin c)) u) = emapt (clip_elt (Fin c)) u). rewrite emapt_emapt.
  apply emapt_ext. intros d x. rewrite !clip_elt_range by assumption. destruct x as [r| | |]; try reflexivity.
  - f_equal. destruct (Rle_dec r (- c)), (Rle_dec c r); repeat match goal with |- context [Rle_dec ?a ?b] => destruct (Rle_dec a b) end; lra.
  - f_equal. repeat match goal with |- context [Rle_dec ?a ?b] => destruct (Rle_dec a b) end; lra.
  - f_equal. repeat match goal with |- context [Rle_dec ?a ?b] => destruct (Rle_dec a b) end; lra.
Qed.
(*@ex C04_example *)
Lemma clip_example : forall `{P : Platform}, exists u', update (clip (Fin 3)) (ex_g 2) EmptyState None = Ok (u', EmptyState) /\
  elt u' (0%nat, 1%nat) = Some (Fin 2) /\ elt u' (1%nat, 2%nat) = Some (Fin 3).
Proof.
  intros P. destruct (clip_spec 3 (ex_g 2) EmptyState None ltac:(lra) (ex_g_wf 2)) as (u' & E & _ & He & _).
  exists u'. split; [exact E|]. split.
  - destruct (He (0%nat, 1%nat) 2 eq_refl) as (y & -> & _ & H & _). rewrite H by lra. reflexivity.
  - destruct (He (1%nat, 2%nat) 7 eq_refl) as (y & -> & _ & _ & H & _). rewrite H by lra. reflexivity.
Qed.

(** ** C09 *)
(** Element [i] of an array, by its multi-index. *)
Definition same_shapes {A B} (p : tree (gt A)) (u : tree (gt B)) : Prop := tmap shp p = tmap shp u.
Lemma bin_same_shape `{O : Ops} op (a b : tensor) : shp a = shp b -> twf a -> twf b ->
  exists c, bin op a b = Ok c /\ aval c = (promote (dt a) (dt b), shp a) /\ twf c /\
    forall i x y, nth_error (dat a) i = Some x -> nth_error (dat b) i = Some y ->
      nth_error (dat c) i = Some (let D := promote (dt a) (dt b) in op D (conv (dt a) D x) (conv (dt b) D y)).
Proof.
  intros E Wa Wb. unfold bin. rewrite E, shape_eqb_refl. eexists. split; [reflexivity|]. split; [reflexivity|].
  split; [unfold twf in *; cbn; rewrite map2_length, Wa, Wb, E; apply Nat.min_id|].
  intros i x y Hx Hy. cbn. rewrite nth_error_map2, Hx, Hy. reflexivity.
Qed.

(*@ C09_apply_updates : If updates have the structure and shapes of params (dtypes arbitrary), apply_updates succeeds, the result has exactly the structure, shapes and dtypes of params, and each element is p + u computed in the promoted dtype and cast to the dtype of p. *)
Lemma apply_updates_spec : forall `{O : Ops} (p u : tree tensor), tmap shp p = tmap shp u -> trwf p -> trwf u ->
  exists r, apply_updates p u = Ok r /\ like p r /\
    forall pos x y, elt p pos = Some x -> elt u pos = Some y ->
      let dp := leafdt p pos in let du := leafdt u pos in let D := promote dp du in
      elt r pos = Some (conv D dp (fadd D (conv dp D x) (conv du D y))).
Proof.
  intros O p u E Wp Wu.
  destruct (tree_pair shp shp p u E) as (z & Zp & Zu & Zs).
  assert (Wz : Forall (fun q => twf (fst q) /\ twf (snd q)) (leaves z)).
  { rewrite <- Zp in Wp. rewrite <- Zu in Wu. unfold trwf in *. rewrite leaves_tmap, Forall_map in Wp, Wu.
    rewrite Forall_forall in *. intros q Hq. split; [now apply Wp|now apply Wu]. }
  set (f := fun p u : tensor => let* s := bin fadd p u in Ok (astype (dt p) s)).
  destruct (tree_choice (fun q r => f (fst q) (snd q) = Ok r /\ aval r = aval (fst q) /\ twf r /\
     forall i x y, nth_error (dat (fst q)) i = Some x -> nth_error (dat (snd q)) i = Some y ->
       let dp := dt (fst q) in let du := dt (snd q) in let D := promote dp du in
       nth_error (dat r) i = Some (conv D dp (fadd D (conv dp D x) (conv du D y)))) z) as (w & Wz' & Hw).
  { rewrite Forall_forall in *. intros [a b] Hq. specialize (Zs _ Hq). destruct (Wz _ Hq) as [Wa Wb]. cbn in *.
    destruct (bin_same_shape fadd a b Zs Wa Wb) as (c & Ec & Hc & Wc & He).
    exists (astype (dt a) c). unfold f. rewrite Ec. cbn. unfold aval in *. injection Hc as Hd Hs.
    split; [reflexivity|]. split; [cbn; now rewrite Hs|]. split; [unfold twf in *; cbn; now rewrite map_length|].
    intros i x y Hx Hy. rewrite nth_error_map, (He i x y Hx Hy). cbn. now rewrite Hd. }
  assert (Hr : apply_updates p u = Ok (tmap snd w)).
  { unfold apply_updates. fold f. rewrite <- Zp, <- Zu, tmm2_same, <- Wz', tmapM_tmap.
    rewrite (tmapM_ext _ (fun q => Ok (snd q))); [apply tmapM_ok|]. rewrite Forall_forall in Hw. intros a Ha. apply Hw, Ha. }
  exists (tmap snd w). split; [exact Hr|].
  rewrite Forall_forall in Hw. split.
  - split.
    + unfold avals. rewrite <- Zp, <- Wz', !tmap_tmap. apply tmap_ext. intros a Ha. apply Hw, Ha.
    + unfold trwf. rewrite leaves_tmap, Forall_map, Forall_forall. intros a Ha. apply Hw, Ha.
  - intros pos x y. unfold elt, leafdt. rewrite <- Zp, <- Zu, <- Wz', !tmap_tmap, !nth_error_leaves_tmap.
    destruct (nth_error (leaves w) (fst pos)) as [a|] eqn:Ea; cbn; [|discriminate].
    apply nth_error_In in Ea. destruct (Hw a Ea) as (_ & _ & _ & He). apply He.
Qed.
(*@ C09_structure_mismatch_raises : If the two tree structures differ in any way, it raises instead of returning. *)
Lemma apply_updates_mismatch : forall `{O : Ops} (p u : tree tensor), tdef p <> tdef u -> exists e, apply_updates p u = Err e.
Proof.
  intros O p u Hne. destruct (apply_updates p u) as [r|e] eqn:E; [|eauto]. apply tmm2_tdef in E as [E _]. congruence.
Qed.
(*@ C09_broadcasting_update_changes_the_shape_refuted : Equal shapes are needed: an update that broadcasts to a larger shape silently changes the parameter's shape. *)
Lemma apply_updates_broadcast : forall `{P : Platform}, exists r,
  apply_updates (Leaf (mkT F32 [1%nat] [Fin 1])) (Leaf (mkT F32 [2%nat] [Fin 1; Fin 2])) = Ok r /\
  avals r = Leaf (F32, [2%nat]).
Proof. intros P. eexists. split; reflexivity. Qed.
(*@ex C09_example *)
Lemma apply_updates_example : forall `{P : Platform}, exists r, apply_updates (Leaf (mkT BF16 [2%nat] [Fin 1; Fin 2])) (Leaf (mkT F32 [2%nat] [Fin 3; Fin 5])) = Ok r
  /\ avals r = Leaf (BF16, [2%nat]) /\ elt r (0%nat, 1%nat) = Some (Fin 7).
Proof.
  intros P. eexists. split; [reflexivity|]. split; [reflexivity|]. cbn. do 2 f_equal. lra.
Qed.

(** ** C07, exact arithmetic *)
Lemma nonneg_update `{O : Ops} (u p : tree tensor) st : avals u = avals p -> trwf u -> trwf p ->
  exists W, emapt (fun _ => fst) W = u /\ emapt (fun _ => snd) W = p /\ trwf W /\
    update keep_params_nonnegative u st (Some p) =
    Ok (emapt (fun d z => if flt (fadd d (snd z) (fst z)) (fcast d fzero) then fneg (snd z) else fst z) W, st).
Proof.
  intros E Wu Wp. destruct (tree_gzip u p E Wu Wp) as (W & HW & WW & E1 & E2). exists W. repeat split; auto.
  destruct refines_nonneg as (repr & sg & Hi & Hs & _ & Hu).
  set (W' := emapt (fun _ z => (z, tt)) W). specialize (Hu 0%nat W' (Some p)).
  unfold W' in Hu. rewrite !emapt_emapt in Hu. cbn [fst snd m_fun m_step] in Hu.
  change (emapt (fun (_ : fdt) (x : F * F) => fst x) W) with (emapt (fun _ : fdt => @fst F F) W) in Hu.
  change (emapt (fun (_ : fdt) (x : F * F) => snd x) W) with (emapt (fun _ : fdt => @snd F F) W) in Hu. rewrite E1, E2 in Hu. specialize (Hu ltac:(now apply emapt_wf) (fun _ => eq_refl)).
  cbn [update keep_params_nonnegative stateless] in *.
  destruct (tmm2 nonneg_leaf p u) as [x|e]; cbn [rbind] in *; [|discriminate]. injection Hu as -> _. reflexivity.
Qed.
(*@ C07_params_become_max_0 : Applying the constrained updates gives max(0, p+u) at every element with finite p and u: never a negative parameter. *)
Lemma nonneg_exact : forall `{P : Platform} (u p : tree tensor) st, avals u = avals p -> trwf u -> trwf p ->
  exists u' r, update keep_params_nonnegative u st (Some p) = Ok (u', st) /\ like p u' /\
    apply_updates p u' = Ok r /\ like p r /\
    forall pos x y, elt p pos = Some (Fin x) -> elt u pos = Some (Fin y) -> elt r pos = Some (Fin (Rmax 0 (x + y))).
Proof.
  intros P u p st E Wu Wp. destruct (nonneg_update u p st E Wu Wp) as (W & E1 & E2 & WW & Eu).
  eexists. destruct (apply_updates_spec p (emapt (fun d z => if flt (fadd d (snd z) (fst z)) (fcast d fzero) then fneg (snd z) else fst z) W)) as (r & Er & Hr & He).
  - rewrite <- E2. unfold emapt. now rewrite !tmap_tmap.
  - assumption.
  - now apply emapt_wf.
  - exists r. split; [exact Eu|]. split; [split; [rewrite <- E2; now rewrite !emapt_avals|now apply emapt_wf]|].
    split; [exact Er|]. split; [exact Hr|]. intros pos x y Hx Hy.
    rewrite <- E1, elt_emapt in Hy. pose proof Hx as Hx'. rewrite <- E2, elt_emapt in Hx'.
    destruct (elt W pos) as [[a b]|] eqn:Ew; cbn in Hy, Hx'; [|discriminate]. injection Hy as ->. injection Hx' as ->.
    erewrite He; [|exact Hx|rewrite elt_emapt, Ew; reflexivity]. cbn zeta. rewrite !xconv.
    cbn [fadd flt fneg fcast XROps fst snd]. rewrite f0. rewrite !xadd_fin.
    destruct (xlt (Fin (x + y)) (Fin 0)) eqn:El.
    + apply xlt_fin in El. cbn [xneg]. rewrite xadd_fin. do 2 f_equal. rewrite Rmax_left by lra. lra.
    + apply xlt_fin_f in El. rewrite xadd_fin. do 2 f_equal. rewrite Rmax_right by lra. reflexivity.
Qed.
(*@ C07_params_required : Without params it raises ValueError. *)
Lemma nonneg_none : forall `{O : Ops} u st, update keep_params_nonnegative u st None = Err EValue.
Proof. reflexivity. Qed.
(*@ C07_negative_params_not_always_zeroed_refuted : The documentation's "params that are already negative are made exactly zero" fails when p+u > 0: p = -1, u = 3 gives 2. *)
Lemma nonneg_doc : forall `{P : Platform}, exists u' r,
  update keep_params_nonnegative (one (Fin 3)) EmptyState (Some (one (Fin (-1)))) = Ok (u', EmptyState) /\
  apply_updates (one (Fin (-1))) u' = Ok r /\ elt r (0%nat, 0%nat) = Some (Fin 2).
Proof.
  intros P. destruct (nonneg_exact (one (Fin 3)) (one (Fin (-1))) EmptyState eq_refl (one_wf _) (one_wf _)) as (u' & r & E1 & _ & E2 & _ & He).
  exists u', r. split; [exact E1|]. split; [exact E2|]. rewrite (He (0%nat, 0%nat) (-1) 3 eq_refl eq_refl).
  do 2 f_equal. rewrite Rmax_right by lra. lra.
Qed.
(*@ex C07_example *)
Lemma nonneg_example : forall `{P : Platform}, exists u' r,
  update keep_params_nonnegative (ex_g 3) EmptyState (Some ex_p) = Ok (u', EmptyState) /\
  apply_updates ex_p u' = Ok r /\ elt r (1%nat, 1%nat) = Some (Fin 1) /\ elt r (1%nat, 3%nat) = Some (Fin 3).
Proof.
  intros P. destruct (nonneg_exact (ex_g 3) ex_p EmptyState eq_refl (ex_g_wf 3) ex_p_wf) as (u' & r & E1 & _ & E2 & _ & He).
  exists u', r. split; [exact E1|]. split; [exact E2|].
  rewrite (He (1%nat, 1%nat) 4 (-3) eq_refl eq_refl), (He (1%nat, 3%nat) (-6) (3*3) eq_refl eq_refl).
  split; do 2 f_equal; rewrite Rmax_right; lra.
Qed.

(** ** C08 *)
(*@ C08_zero_nans : For every arithmetic with a NaN test, every updates tree, state and params: the output has the structure, shapes and dtypes of the updates, exactly the NaN elements are replaced by 0, and the new state flags leaf j iff leaf j of this very update contains a NaN, whatever the previous state (i.e. whatever the history). *)
Lemma zero_nans_spec : forall `{O : Ops} (u : tree tensor) (st : state) par,
  exists u' flags, update zero_nans u st par = Ok (u', SNode NZeroNans [SBTree flags]) /\
    avals u' = avals u /\ tdef flags = tdef u /\
    (forall pos x, elt u pos = Some x -> elt u' pos = Some (if fisnan x then fcast (leafdt u pos) fzero else x)) /\
    (forall j l, nth_error (leaves u) j = Some l ->
       exists b, nth_error (leaves flags) j = Some b /\ (b = true <-> exists x, In x (dat l) /\ fisnan x = true)).
Proof.
  intros O u st par. eexists _, _. split; [reflexivity|]. change (tmap (emap ?f) u) with (emapt f u).
  split; [apply emapt_avals|]. split; [apply tdef_tmap|]. split.
  - intros pos x Hx. rewrite elt_emapt, Hx. reflexivity.
  - intros j l Hl. rewrite nth_error_leaves_tmap, Hl. eexists; split; [reflexivity|]. apply existsb_exists.
Qed.
(*@ C08_zero_nans_init : Initially no leaf is flagged. *)
Lemma zero_nans_init : forall `{O : Ops} (p : tree tensor),
  exists flags, init zero_nans p = Ok (SNode NZeroNans [SBTree flags]) /\ tdef flags = tdef p /\ Forall (fun b => b = false) (leaves flags).
Proof.
  intros O p. eexists. split; [reflexivity|]. split; [apply tdef_tmap|]. rewrite leaves_tmap, Forall_map.
  apply Forall_forall. reflexivity.
Qed.
(*@ex C08_example *)
Lemma zero_nans_example : forall `{P : Platform}, exists u',
  update zero_nans (Node KList [Leaf (mkT F32 [2%nat] [NaN; PInf]); one (Fin 3)]) (SNode NZeroNans []) None =
  Ok (u', SNode NZeroNans [SBTree (Node KList [Leaf true; Leaf false])]) /\ elt u' (0%nat, 0%nat) = Some (Fin 0) /\ elt u' (0%nat, 1%nat) = Some PInf.
Proof. intros P. eexists. split; [reflexivity|]. cbn. split; [|reflexivity]. f_equal. exact (@f0 P). Qed.

(** ** C10 *)
(*@ C10_incremental_update : Element-wise step*new + (1-step)*old, hence between old and new for 0 <= step <= 1, equal to new for step 1 and to old for step 0. *)
Lemma incremental_spec : forall `{P : Platform} (new old : tree tensor) (s : R),
  avals new = avals old -> trwf new -> trwf old ->
  exists r, incremental_update new old (Fin s) = Ok r /\ like old r /\
    forall pos x y, elt new pos = Some (Fin x) -> elt old pos = Some (Fin y) ->
      exists v, elt r pos = Some (Fin v) /\ v = s * x + (1 - s) * y /\
        (0 <= s <= 1 -> Rmin x y <= v <= Rmax x y) /\ (s = 1 -> v = x) /\ (s = 0 -> v = y).
Proof.
  intros P new old s E Wn Wo. destruct (tree_gzip new old E Wn Wo) as (W & HW & WW & E1 & E2). subst.
  unfold incremental_update. erewrite tmm2_ew by (intros; rewrite !sl_emap, bin_emap; reflexivity).
  eexists; split; [reflexivity|]. split; [split; [now rewrite !emapt_avals|now apply emapt_wf]|].
  intros pos x y. rewrite !elt_emapt. destruct (elt W pos) as [[a b]|]; cbn [option_map fst snd]; [|discriminate].
  intros [= ->] [= ->]. cbn [fadd fmul fcast XROps]. rewrite xpy1m, !xmul_fin, xadd_fin.
  eexists; split; [reflexivity|]. split; [reflexivity|]. split; [|split; intros ->; ring].
  intros Hs. unfold Rmin, Rmax. destruct (Rle_dec x y); nra.
Qed.

Fixpoint polyak `{O : Ops} (old : tree tensor) (news : list (tree tensor)) (s : F) : result (tree tensor) :=
  match news with [] => Ok old | n :: r => let* o := incremental_update n old s in polyak o r s end.
Fixpoint ema_list (s y : R) (xs : list R) : R :=
  match xs with [] => y | x :: r => ema_list s (s * x + (1 - s) * y) r end.
Lemma polyak_run `{P : Platform} s (news : list (tree tensor)) : forall old : tree tensor,
  trwf old -> Forall (like old) news ->
  exists r, polyak old news (Fin s) = Ok r /\ like old r /\
    forall pos xs y, Forall2 (fun n x => elt n pos = Some (Fin x)) news xs -> elt old pos = Some (Fin y) ->
      elt r pos = Some (Fin (ema_list s y xs)).
Proof.
  induction news as [|n news IH]; intros old Wo HF.
  - exists old. split; [reflexivity|]. split; [split; auto|]. intros pos xs y H2 Hy. inversion H2; subst. exact Hy.
  - inversion HF as [|? ? [Ha Wn] HF']; subst. destruct (incremental_spec n old s Ha Wn Wo) as (o & Eo & [Ho Wo'] & He).
    destruct (IH o Wo') as (r & Er & [Hr Wr] & Her).
    { eapply Forall_impl; [|exact HF']. intros t [Ht Wt]. split; [congruence|assumption]. }
    exists r. cbn [polyak]. rewrite Eo. cbn [rbind]. split; [exact Er|]. split; [split; [congruence|assumption]|].
    intros pos xs y H2 Hy. inversion H2 as [|? x ? xs' Hx Hxs]; subst.
    destruct (He pos x y Hx Hy) as (v & Hv & -> & _). exact (Her pos xs' _ Hxs Hv).
Qed.
Lemma ema_list_snoc s y xs x : ema_list s y (xs ++ [x]) = s * x + (1 - s) * ema_list s y xs.
Proof. revert y; induction xs as [|a xs IH]; intros y; cbn; [reflexivity|apply IH]. Qed.
Lemma ema_list_closed s y (x : nat -> R) n :
  ema_list s y (map x (seq 0 n)) = (1 - s) ^ n * y + s * rsumn (fun i => (1 - s) ^ (n - 1 - i) * x i) n.
Proof.
  induction n as [|n IH]; [cbn; ring|]. rewrite seq_S, map_app. cbn [map Nat.add]. rewrite ema_list_snoc, IH. cbn [rsumn].
  replace (S n - 1 - n)%nat with 0%nat by lia.
  assert (E : forall m, (m <= n)%nat -> rsumn (fun i => (1 - s) ^ (S n - 1 - i) * x i) m = (1 - s) * rsumn (fun i => (1 - s) ^ (n - 1 - i) * x i) m).
  { induction m as [|m IHm]; intros Hm; cbn [rsumn]; [ring|]. rewrite IHm by lia.
    replace (S n - 1 - m)%nat with (S (n - 1 - m)) by lia. cbn [pow]. ring. }
  rewrite E by lia. cbn [pow]. ring.
Qed.
(*@ C10_polyak_average : Maintained over n calls against the online values x 0 .. x (n-1), the copy is (1-s)^n y0 + s sum (1-s)^(n-1-i) x_i; against a constant x the distance is exactly (1-s)^n (y0 - x). *)
Lemma polyak_spec : forall `{P : Platform} (old : tree tensor) (news : list (tree tensor)) (s : R),
  trwf old -> Forall (like old) news ->
  exists r, polyak old news (Fin s) = Ok r /\ like old r /\
    forall pos (x : nat -> R) y0, let n := length news in
      (forall i t, nth_error news i = Some t -> elt t pos = Some (Fin (x i))) -> elt old pos = Some (Fin y0) ->
      exists v, elt r pos = Some (Fin v) /\
        v = (1 - s) ^ n * y0 + s * rsumn (fun i => (1 - s) ^ (n - 1 - i) * x i) n /\
        (forall c, (forall i, (i < n)%nat -> x i = c) -> v - c = (1 - s) ^ n * (y0 - c)).
Proof.
  intros P old news s Wo HF. destruct (polyak_run s news old Wo HF) as (r & Er & Hr & He).
  exists r. split; [exact Er|]. split; [exact Hr|]. intros pos x y0 n Hx Hy.
  assert (H2 : Forall2 (fun t v => elt t pos = Some (Fin v)) news (map x (seq 0 n))).
  { clear - Hx. unfold n. clear n. revert x Hx. induction news as [|t news IH]; intros x Hx; [constructor|].
    cbn [length seq map]. constructor; [apply (Hx 0%nat); reflexivity|]. rewrite <- seq_shift, map_map.
    apply (IH (fun i => x (S i))). intros i t' Ht. apply (Hx (S i)). exact Ht. }
  rewrite (He pos _ y0 H2 Hy). eexists; split; [reflexivity|]. split; [apply ema_list_closed|].
  intros c Hc. replace (map x (seq 0 n)) with (map (fun _ => c) (seq 0 n)).
  2:{ apply map_ext_in. intros i Hi. apply in_seq in Hi. symmetry. apply Hc. lia. }
  clear. generalize (seq 0 n) as l, (seq_length n 0). intros l Hl. rewrite <- Hl. clear Hl.
  induction l as [|a l IH] using rev_ind; [cbn; ring|]. rewrite map_app. cbn [map]. rewrite ema_list_snoc, app_length, Nat.add_1_r. cbn [pow].
  replace (s * c + (1 - s) * ema_list s y0 (map (fun _ => c) l) - c) with ((1 - s) * (ema_list s y0 (map (fun _ => c) l) - c)) by ring.
  rewrite IH. ring.
Qed.
(*@ex C10_example *)
Lemma polyak_example : forall `{P : Platform}, exists r, polyak ex_p [ex_g 1; ex_g 2] (Fin (1/2)) = Ok r /\ elt r (0%nat, 1%nat) = Some (Fin (7/4)).
Proof.
  intros P. destruct (polyak_spec ex_p [ex_g 1; ex_g 2] (1/2) ex_p_wf) as (r & Er & _ & He).
  { repeat constructor. }
  exists r. split; [exact Er|]. destruct (He (0%nat, 1%nat) (fun i => INR (S i)) 2) as (v & -> & -> & _).
  - intros [|[|i]] t; cbn; try (intros [= <-]; cbn; do 2 f_equal; lra). destruct i; discriminate.
  - reflexivity.
  - do 2 f_equal. cbn. lra.
Qed.

(** ** C11 *)
Fixpoint maintain `{O : Ops} (k : Z) (start : Z) (target : tree tensor) (online : list (tree tensor)) : result (tree tensor) :=
  match online with
  | [] => Ok target
  | o :: r => let* t := periodic_update o target start k in maintain k (start + 1) t r
  end.
(*@ C11_periodic_update : A target copy maintained along steps start, start+1, ... is, after any number of steps, exactly the online parameters of the last step divisible by k, or the initial target if there was none: never a mixture. *)
Lemma periodic_spec : forall `{O : Ops} (k start : Z) (target : tree tensor) (online : list (tree tensor)),
  (1 <= k)%Z -> Forall (fun o => avals o = avals target) online ->
  exists r, maintain k start target online = Ok r /\
    ((forall i, (i < length online)%nat -> ((start + Z.of_nat i) mod k <> 0)%Z) -> r = target) /\
    (forall i o, nth_error online i = Some o -> ((start + Z.of_nat i) mod k = 0)%Z ->
       (forall j, (i < j < length online)%nat -> ((start + Z.of_nat j) mod k <> 0)%Z) -> r = o).
Proof.
  intros O k start target online Hk. revert start target; induction online as [|o online IH]; intros start target HF.
  - exists target. split; [reflexivity|]. split; [auto|]. intros [|i]; discriminate.
  - inversion HF as [|? ? Ho HF']; subst. cbn [maintain]. unfold periodic_update.
    destruct (Z.eqb_spec k 0); [lia|]. unfold cond_tree, lax_cond. cbn [rbind].
    assert (E : tree_eqb aval_eqb (avals o) (avals target) = true) by now apply avals_eqb_eq. rewrite E. cbn [rbind].
    set (t1 := if (start mod k =? 0)%Z then o else target).
    assert (H1 : avals t1 = avals target) by (unfold t1; now destruct (start mod k =? 0)%Z).
    destruct (IH (start + 1)%Z t1) as (r & Er & Ha & Hb).
    { eapply Forall_impl; [|exact HF']. intros; congruence. }
    exists r. split; [exact Er|]. split.
    + intros Hall. rewrite Ha.
      * unfold t1. specialize (Hall 0%nat ltac:(cbn; lia)). rewrite Z.add_0_r in Hall. now destruct (Z.eqb_spec (start mod k) 0).
      * intros i Hi. specialize (Hall (S i) ltac:(cbn; lia)). replace (start + 1 + Z.of_nat i)%Z with (start + Z.of_nat (S i))%Z by lia. exact Hall.
    + intros [|i] o' Hi Hm Hlater.
      * injection Hi as <-. rewrite Z.add_0_r in Hm. rewrite Ha.
        -- unfold t1. rewrite Hm. reflexivity.
        -- intros i Hi'. specialize (Hlater (S i) ltac:(cbn; lia)). replace (start + 1 + Z.of_nat i)%Z with (start + Z.of_nat (S i))%Z by lia. exact Hlater.
      * apply (Hb i o' Hi).
        -- replace (start + 1 + Z.of_nat i)%Z with (start + Z.of_nat (S i))%Z by lia. exact Hm.
        -- intros j Hj. specialize (Hlater (S j) ltac:(cbn; lia)). replace (start + 1 + Z.of_nat j)%Z with (start + Z.of_nat (S j))%Z by lia. exact Hlater.
Qed.
(*@ex C11_example *)
Lemma periodic_example : forall `{P : Platform}, maintain 2 1 (one (Fin 0)) [one (Fin 1); one (Fin 2); one (Fin 3)] = Ok (one (Fin 2)).
Proof. reflexivity. Qed.

(** ** C66 *)
(** The element-wise transformations and everything chained from them.  The flag says that params
    are not looked at. *)
Inductive elementwise `{O : Ops} : bool -> GT -> Prop :=
| ew_identity : elementwise true identity
| ew_trace decay nesterov : elementwise true (trace decay nesterov None)
| ew_ema decay debias : elementwise true (ema decay debias None)
| ew_rss a eps : elementwise true (scale_by_rss a eps)
| ew_rms b eps v : elementwise true (scale_by_rms b eps v)
| ew_stddev b eps v : elementwise true (scale_by_stddev b eps v)
| ew_adam b1 b2 eps er : elementwise true (scale_by_adam b1 b2 eps er)
| ew_belief b1 b2 eps er : elementwise true (scale_by_belief b1 b2 eps er)
| ew_yogi b1 b2 eps er v : elementwise true (scale_by_yogi b1 b2 eps er v)
| ew_radam b1 b2 eps er th : elementwise true (scale_by_radam b1 b2 eps er th)
| ew_scale c : elementwise true (scale c)
| ew_schedule f : elementwise true (scale_by_schedule f)
| ew_every k : (1 <= k <= 2 ^ 31 - 1)%Z -> elementwise true (apply_every k)
| ew_clip c : elementwise true (clip c)
| ew_wd c : elementwise false (add_decayed_weights c)
| ew_nonneg : elementwise false keep_params_nonnegative
| ew_weaken T : elementwise true T -> elementwise false T
| ew_chain np ts c : Forall (elementwise np) ts -> chain ts = Ok c -> elementwise np c.

Section EwInd.
  Context `{O : Ops}.
  Definition has_machine (np : bool) (T : GT) : Prop :=
    exists M, refines np T M /\ forall d x x', m_init M d x = m_init M d x'.
  Fixpoint elementwise_machine np T (H : elementwise np T) {struct H} : has_machine np T.
  Proof.
    destruct H.
    - exists mid. split; [apply refines_identity|reflexivity].
    - exists (m_trace decay nesterov). split; [apply refines_trace|reflexivity].
    - exists (m_ema decay debias). split; [apply refines_ema|reflexivity].
    - exists (m_rss a eps). split; [apply refines_rss|reflexivity].
    - exists (m_rms b eps v). split; [apply refines_rms|reflexivity].
    - exists (m_stddev b eps v). split; [apply refines_stddev|reflexivity].
    - exists (m_adam b1 b2 eps er). split; [apply refines_adam|reflexivity].
    - exists (m_belief b1 b2 eps er). split; [apply refines_belief|reflexivity].
    - exists (m_yogi b1 b2 eps er v). split; [apply refines_yogi|reflexivity].
    - exists (m_radam b1 b2 eps er th). split; [apply refines_radam|reflexivity].
    - eexists. split; [apply refines_scale|reflexivity].
    - eexists. split; [apply refines_schedule|reflexivity].
    - exists (m_every k). split; [now apply refines_every|reflexivity].
    - eexists. split; [apply refines_clip|reflexivity].
    - eexists. split; [apply refines_wd|reflexivity].
    - eexists. split; [apply refines_nonneg|reflexivity].
    - destruct (elementwise_machine _ _ H) as (M & HM & Hi). exists M. split; [now apply refines_weaken|assumption].
    - assert (HF : exists Ms, Forall2 (refines np) ts Ms /\ Forall (fun M => forall d x x', m_init M d x = m_init M d x') Ms).
      { clear H0. induction H as [|T ts HT HF IH]; [exists []; split; constructor|].
        destruct IH as (Ms & F1 & F2). destruct (elementwise_machine _ _ HT) as (M & HM & Hi).
        exists (M :: Ms). split; constructor; assumption. }
      destruct HF as (Ms & F1 & F2).
      assert (c = chain_gt ts) as -> by (destruct ts; cbn in *; congruence).
      exists (mchain Ms). split; [now apply refines_chain|].
      clear - F2. induction F2 as [|M Ms HM F IH]; intros d x x'; cbn; [reflexivity|]. now rewrite (HM d x x'), (IH d x x').
  Qed.
End EwInd.

(*@ C66_element_independence : For every element-wise transformation or chain of such, in any arithmetic: take two trainings, possibly on different trees and at different positions holding the same dtype, whose gradient histories (and params histories, if params are used) agree at the two positions up to step n. Then the outputs of step n agree there, whatever the other elements, the initial params and everything else do (NaN and Inf included). *)
Lemma element_independence : forall `{O : Ops} np (T : GT), elementwise np T ->
  forall (p p' : tree tensor) H H', trwf p -> trwf p' -> hist_ok np p H -> hist_ok np p' H' ->
  exists outs outs', trains T p H outs /\ trains T p' H' outs' /\
    forall n pos pos', (n < length H)%nat -> (n < length H')%nat ->
      leafdt p pos = leafdt p' pos' ->
      (forall i, (i <= n)%nat -> exists x, helt H i pos = Some x /\ helt H' i pos' = Some x) ->
      (np = false -> forall i, (i <= n)%nat -> exists x, hpelt H i pos = Some x /\ hpelt H' i pos' = Some x) ->
      exists y, oelt outs n pos = Some y /\ oelt outs' n pos' = Some y.
Proof.
  intros O np T HT p p' H H' Wp Wp' HH HH'. destruct (elementwise_machine np T HT) as (M & HM & Hi).
  destruct (refines_trains np T M HM p H Wp HH) as (outs & Ht & _ & _ & He).
  destruct (refines_trains np T M HM p' H' Wp' HH') as (outs' & Ht' & _ & _ & He').
  exists outs, outs'. split; [assumption|]. split; [assumption|]. intros n pos pos' Hn Hn' Hd Hg Hp.
  set (gs := fun i => match helt H i pos with Some x => x | None => fzero end).
  set (ps := fun i => match hpelt H i pos with Some x => x | None => fzero end).
  destruct (He n pos gs ps Hn) as (x & _ & Ex).
  { intros i Hi'. unfold gs. destruct (Hg i Hi') as (v & -> & _). reflexivity. }
  { intros Hnp i Hi'. unfold ps. destruct (Hp Hnp i Hi') as (v & -> & _). reflexivity. }
  destruct (He' n pos' gs ps Hn') as (x' & _ & Ex').
  { intros i Hi'. unfold gs. destruct (Hg i Hi') as (v & -> & E). exact E. }
  { intros Hnp i Hi'. unfold ps. destruct (Hp Hnp i Hi') as (v & -> & E). exact E. }
  eexists; split; [exact Ex|]. rewrite Ex', Hd. f_equal. unfold mout.
  enough (E : forall k, mst M (leafdt p' pos') x' gs ps k = mst M (leafdt p' pos') x gs ps k) by now rewrite E.
  induction k as [|k IHk]; cbn; [apply Hi|]. now rewrite IHk.
Qed.
(*@ C66_zero_nans_element_independence : zero_nans too: an output element is a function of the same input element of the same call only. *)
Lemma zero_nans_elt : forall `{O : Ops} (u v : tree tensor) s s' par par' pos x,
  elt u pos = Some x -> elt v pos = Some x -> leafdt u pos = leafdt v pos ->
  exists u' t v' t' y, update zero_nans u s par = Ok (u', t) /\ update zero_nans v s' par' = Ok (v', t') /\
    elt u' pos = Some y /\ elt v' pos = Some y.
Proof.
  intros O u v s s' par par' pos x Hu Hv Hd. eexists _, _, _, _, _. split; [reflexivity|]. split; [reflexivity|].
  change (tmap (emap ?f) u) with (emapt f u). change (tmap (emap ?f) v) with (emapt f v). rewrite !elt_emapt, Hu, Hv, Hd. split; reflexivity.
Qed.
(*@ex C66_example *)
Lemma element_independence_example : forall `{P : Platform}, exists c,
  chain [clip (Fin 1); scale_by_adam (Fin (9/10)) (Fin (99/100)) (Fin 1) (Fin 0); add_decayed_weights (Fin (1/2)); scale (Fin (-1))] = Ok c /\
  elementwise false c.
Proof.
  intros P. eexists. split; [reflexivity|].
  match goal with |- elementwise _ (chain_gt ?l) => apply (ew_chain false l); [|reflexivity] end.
  repeat constructor.
Qed.
