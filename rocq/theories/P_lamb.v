(** Trust ratio and lamb: the layer-wise relative step (C99). *)
From Verif Require Export P_stable P_alias2.
From Coq Require Import List Psatz.
Import ListNotations.
Open Scope R_scope.
(*@header
From Coq Require Import List.
Import ListNotations.
Open Scope R_scope.
*)

(** The values of leaf number [j] of a parameters tree, as a vector of reals. *)
Definition layer (u : tree (gt XR)) (j : nat) : list R := match nth_error (leaves u) j with Some t => map xval (dat t) | None => [] end.
(** The history of calls a training loop makes: the gradients of each step with the parameters of that step. *)
Definition calls {A} (gs qs : list A) : list (A * option A) := combine gs (map Some qs).

Lemma hist_calls `{O : Ops} np p : forall gs qs, Forall (like p) gs -> Forall (like p) qs -> hist_ok np p (calls gs qs).
Proof.
  intros gs qs Hg. revert qs. induction Hg as [|g gs Hg Hgs IH]; intros qs Hq; [constructor|]. destruct Hq as [|q qs Hq Hqs]; [constructor|]. cbn. constructor; [split; [exact Hg|intros _; exists q; auto]|]. apply IH, Hqs.
Qed.
Lemma total_loop `{O : Ops} T p gs : trwf p -> (forall H, hist_ok false p H -> exists outs, trains T p H outs /\ Forall (like p) outs) -> Forall (like p) gs ->
  exists s0 qs outs sf, init T p = Ok s0 /\ train_loop T s0 p gs = Ok (qs, sf) /\ run T s0 (calls gs (p :: qs)) = Ok (outs, sf) /\ length qs = length gs /\ length outs = length gs /\ Forall (like p) qs /\ Forall (like p) outs /\
     forall n q u, nth_error (p :: qs) n = Some q -> nth_error outs n = Some u -> exists q', nth_error qs n = Some q' /\ apply_updates q u = Ok q'.
Proof.
  intros Wp HE Hgs.
  assert (E0 : exists s0, init T p = Ok s0) by (destruct (HE [] (Forall_nil _)) as (outs & (s0 & s1 & E & _) & _); eauto). destruct E0 as (s0 & Ei). exists s0.
  assert (Hpp : like p p) by (split; [reflexivity|exact Wp]).
  induction gs as [|g gs IH] using rev_ind.
  - exists [], [], s0. repeat (split; [first [assumption|reflexivity|constructor]|]). intros [|n] q u _ E; discriminate.
  - apply Forall_app in Hgs as (Hgs & Hg). apply Forall_inv in Hg. destruct (IH Hgs) as (qs & outs & sf & _ & El & Er & Hl & Hlo2 & Hq & Ho & Hn).
    assert (Hlast : like p (last qs p)). { pose proof (nth_error_last qs p) as E. apply nth_error_In in E. destruct E as [E|E]; [rewrite <- E; exact Hpp|]. rewrite Forall_forall in Hq. now apply Hq. }
    destruct (HE (calls gs (p :: qs) ++ [(g, Some (last qs p))])) as (outs' & (s0' & s1' & Ei' & Er') & Hlk).
    { apply Forall_app. split; [apply hist_calls; [exact Hgs|now constructor]|]. constructor; [|constructor]. split; [exact Hg|intros _; eexists; split; [reflexivity|exact Hlast]]. }
    rewrite Ei in Ei'. injection Ei' as <-. rewrite State.run_app, Er in Er'. cbn [rbind run] in Er'.
    destruct (update T g sf (Some (last qs p))) as [[u s2]|] eqn:Eu; [|discriminate]. cbn [rbind] in Er'. injection Er' as <- <-.
    assert (Hu : like p u) by (rewrite Forall_forall in Hlk; apply Hlk, in_or_app; right; now left).
    destruct (apply_updates_spec (last qs p) u) as (q' & Eq & (Hqa & Hqw) & _).
    { destruct Hlast as (H1 & _), Hu as (H2 & _). unfold avals in H1, H2. pose proof (f_equal (tmap snd) (eq_trans H1 (eq_sym H2))) as Hs. rewrite !tmap_tmap in Hs. exact Hs. }
    { apply Hlast. } { apply Hu. }
    assert (Hlq' : like p q') by (split; [destruct Hlast; congruence|exact Hqw]).
    exists (qs ++ [q']), (outs ++ [u]), s2. split; [exact Ei|]. split; [|split; [|split; [|split; [|split; [|split]]]]].
    + rewrite train_loop_app, El. cbn [rbind train_loop]. rewrite Eu. cbn [rbind]. rewrite Eq. reflexivity.
    + unfold calls in *. change (map Some (p :: qs ++ [q'])) with (map Some ((p :: qs) ++ [q'])). rewrite map_app. cbn [map]. rewrite (combine_snoc _ _ _ _ (Some p)) by (cbn; apply f_equal; rewrite map_length; exact Hl).
      change (Some p :: map Some qs) with (map Some (p :: qs)). rewrite last_map', last_cons', State.run_app, Er. cbn [rbind run]. rewrite Eu. reflexivity.
    + rewrite !app_length, Hl. reflexivity.
    + rewrite !app_length, Hlo2. reflexivity.
    + apply Forall_app. split; [exact Hq|]. constructor; [exact Hlq'|constructor].
    + exact Hlk.
    + intros n q v Eqn Ev. destruct (Nat.lt_ge_cases n (length gs)) as [Hlt|Hge].
      * rewrite nth_error_app1 in Ev by lia. change (p :: qs ++ [q']) with ((p :: qs) ++ [q']) in Eqn. rewrite nth_error_app1 in Eqn by (cbn; lia). destruct (Hn n q v Eqn Ev) as (q2 & H2 & H3). exists q2. split; [|exact H3]. rewrite nth_error_app1 by lia. exact H2.
      * assert (n = length gs). { assert (n < length (outs ++ [u]))%nat by (apply nth_error_Some; congruence). rewrite app_length in *. cbn in *. lia. } subst n.
        rewrite nth_error_app2, Hlo2, Nat.sub_diag in Ev by lia. injection Ev as <-. change (p :: qs ++ [q']) with ((p :: qs) ++ [q']) in Eqn. rewrite nth_error_app1 in Eqn by (cbn; lia). rewrite <- Hl, nth_error_last in Eqn. injection Eqn as <-.
        exists q'. split; [|exact Eq]. rewrite nth_error_app2, Hl, Nat.sub_diag by lia. reflexivity.
Qed.
Lemma run_nth `{O : Ops} T : forall H s outs sf, run T s H = Ok (outs, sf) -> forall n g par, nth_error H n = Some (g, par) -> exists s1 s2 o, nth_error outs n = Some o /\ update T g s1 par = Ok (o, s2).
Proof.
  induction H as [|[g0 par0] H IH]; intros s outs sf E n g par En; [destruct n; discriminate|]. cbn [run] in E.
  destruct (update T g0 s par0) as [[u s']|] eqn:Eu; [|discriminate]. cbn [rbind] in E. destruct (run T s' H) as [[os sf']|] eqn:Er; [|discriminate]. cbn [rbind] in E. injection E as <- <-.
  destruct n as [|n]; cbn [nth_error] in *; [injection En as <- <-; eauto|]. eauto.
Qed.

(** One layer-wise step: [b] is the layer after a step of rate [l] from [a], [d] the direction proposed for it. *)
Definition trust_step (l : R) (a d b : list R) : Prop :=
  (norm2 a = 0 \/ norm2 d = 0 -> b = vadd a (map (Rmult (- l)) d)) /\
  (0 < norm2 a -> 0 < norm2 d -> b = vadd a (map (Rmult (- (l * (norm2 a / norm2 d)))) d)).

(** The direction proposed for layer [j] at step [n], element by element from that element's own history: [gs] are the gradients of the steps, [qs] the parameters from the first on. *)
Definition directions (dir : (nat -> R) -> (nat -> R) -> nat -> R) (p : tree (gt XR)) (gs qs : list (tree (gt XR))) (n j : nat) : list R :=
  map (fun i => dir (fun k => nth i (layer (nth k gs p) j) 0) (fun k => nth i (layer (nth k qs p) j) 0) n) (seq 0 (length (layer p j))).

Section Rel.
  Context {P : Platform}.
  Notation xr := (XROps P).
  Lemma leaf_elt (u : tree (gt XR)) j i t : nth_error (leaves u) j = Some t -> elt u (j, i) = nth_error (dat t) i.
  Proof. intros E. unfold elt. cbn [fst snd]. now rewrite E. Qed.
  Lemma layer_len (p u : tree (gt XR)) j : @like xr p u -> trwf p -> length (layer u j) = length (layer p j).
  Proof.
    intros (Ha & Wu) Wp. unfold layer. apply (f_equal (fun t => nth_error (leaves t) j)) in Ha. unfold avals in Ha. rewrite !nth_error_leaves_tmap in Ha. nx.
    destruct (nth_error (leaves u) j) as [a|] eqn:Ea, (nth_error (leaves p) j) as [b|] eqn:Eb; cbn [option_map] in Ha; try discriminate; [|reflexivity].
    injection Ha as Ha Hs. rewrite !map_length. unfold trwf in *. rewrite Forall_forall in Wu, Wp. pose proof (Wu a (nth_error_In _ _ Ea)) as A. pose proof (Wp b (nth_error_In _ _ Eb)) as B. unfold twf in *. congruence.
  Qed.
  Lemma layer_nth (u : tree (gt XR)) j i : finite_tree u -> (i < length (layer u j))%nat -> elt u (j, i) = Some (Fin (nth i (layer u j) 0)).
  Proof.
    intros Fu Hi. unfold layer in *. destruct (nth_error (leaves u) j) as [t|] eqn:E; [|cbn in Hi; lia]. rewrite (leaf_elt u j i t E). rewrite map_length in Hi.
    destruct (nth_error (dat t) i) as [x|] eqn:Ex; [|apply nth_error_None in Ex; lia]. rewrite (nth_error_nth (map xval (dat t)) i 0 (x := xval x)) by (rewrite nth_error_map, Ex; reflexivity).
    destruct (finite_elt u (j, i) x Fu) as (r & ->); [|reflexivity]. rewrite (leaf_elt u j i t E). exact Ex.
  Qed.
  Lemma layer_ext (u v : tree (gt XR)) j (l : list R) : finite_tree u -> length l = length (layer u j) -> (forall i, (i < length l)%nat -> elt u (j, i) = Some (Fin (nth i l 0))) -> layer u j = l.
  Proof.
    intros Fu Hl H. apply (nth_ext _ _ 0 0); [now symmetry|]. intros i Hi. specialize (H i ltac:(lia)). rewrite (layer_nth u j i Fu Hi) in H. now injection H.
  Qed.
  Lemma nth_vadd a b i : length a = length b -> nth i (vadd a b) 0 = nth i a 0 + nth i b 0.
  Proof.
    unfold vadd. revert b i. induction a as [|x a IH]; intros [|y b] [|i] E; try discriminate; cbn; try lra; try reflexivity. apply IH. now injection E.
  Qed.
  Lemma vadd_len a b : length a = length b -> length (vadd a b) = length a.
  Proof. intros E. unfold vadd. rewrite map_length, combine_length. lia. Qed.

  Context (As : list (@GT xr)) (L : @lrate xr) (lr : Z -> R).
  Hypothesis HL : forall c, @rate xr L c = Fin (lr c).
  Context (dir : (nat -> R) -> (nat -> R) -> nat -> R).
  Hypothesis HA : @emits P false (chain_gt As) (fun g q n y => y = Fin (dir g q n)).
  Notation T := (chain_gt (As ++ [@scale_by_trust_ratio xr (Fin 0); @scale_by_learning_rate xr L])).

  Lemma trust_total p mid (H : list (tree (gt XR) * option (tree (gt XR)))) : trwf p -> @hist_ok xr false p H -> Forall (@like xr p) mid -> length mid = length H ->
    exists m3, @trains xr (scale_by_trust_ratio (Fin 0)) p (feed mid H) m3 /\ Forall (@like xr p) m3.
  Proof.
    intros Wp HH Hm Hl. destruct (@stable_runs xr false _ p (@stable_trust xr (Fin 0) p Wp) (feed mid H)) as (s0 & m3 & s1 & Ei & Er & _ & Hk & _); [|exists m3; split; [exists s0, s1; auto|exact Hk]].
    unfold feed. revert H HH Hl. induction Hm as [|m mid Hm1 Hm IH]; intros [|h H] HH Hl; try discriminate; [constructor|]. apply Forall_cons_iff in HH as (H1 & HH). cbn [map combine]. constructor; [split; [exact Hm1|apply H1]|]. apply IH; [exact HH|now injection Hl].
  Qed.
  Lemma T_split p H outs : @trains xr T p H outs <-> exists mid m3, @trains xr (chain_gt As) p H mid /\ @trains xr (scale_by_trust_ratio (Fin 0)) p (feed mid H) m3 /\ outs = @times_rate xr L m3.
  Proof.
    change (As ++ [@scale_by_trust_ratio xr (Fin 0); @scale_by_learning_rate xr L]) with (As ++ ([@scale_by_trust_ratio xr (Fin 0)] ++ [@scale_by_learning_rate xr L])). rewrite app_assoc, then_lr. split.
    - intros (m3 & E1 & ->). apply chain_snoc in E1 as (mid & E1 & E2). eauto.
    - intros (mid & m3 & E1 & E2 & ->). exists m3. split; [|reflexivity]. apply chain_snoc. eauto.
  Qed.
  Lemma times_like p m3 : Forall (@like xr p) m3 -> Forall (@like xr p) (@times_rate xr L m3).
  Proof.
    intros Hm. apply Forall_forall. intros u Hu. apply In_nth_error in Hu as (n & E). destruct (nth_error m3 n) as [v|] eqn:Ev.
    - pose proof (@nth_times_rate xr L m3 n v Ev) as E2. nx. rewrite E in E2. injection E2 as ->. rewrite Forall_forall in Hm. destruct (Hm v (nth_error_In _ _ Ev)) as (H1 & H2). split; [rewrite emapt_avals; exact H1|now apply emapt_wf].
    - exfalso. apply nth_error_None in Ev. assert (n < length (@times_rate xr L m3))%nat by (apply nth_error_Some; congruence). rewrite times_rate_length in *. nx. lia.
  Qed.
  Lemma T_total p : trwf p -> forall H, @hist_ok xr false p H -> exists outs, @trains xr T p H outs /\ Forall (@like xr p) outs.
  Proof.
    intros Wp H HH. destruct (HA p H Wp HH) as (mid & E1 & Hl & Hk & _). destruct (trust_total p mid H Wp HH Hk Hl) as (m3 & E2 & Hk3).
    exists (times_rate L m3). split; [apply T_split; eauto|now apply times_like].
  Qed.
  Lemma trains_det (T' : @GT xr) p H o1 o2 : @trains xr T' p H o1 -> @trains xr T' p H o2 -> o1 = o2.
  Proof. intros (s & s1 & E1 & E2) (t & t1 & F1 & F2). assert (t = s) as -> by exact (Ok_inj _ _ (eq_trans (eq_sym F1) E1)). pose proof (Ok_inj _ _ (eq_trans (eq_sym E2) F2)) as E. now injection E. Qed.

  (** One step in a finite history. *)
  Lemma one_step p u u' q q' n : @like xr p u -> finite_tree u -> @like xr p q -> finite_tree q -> trwf p -> (exists s1 s2, @update xr (scale_by_trust_ratio (Fin 0)) u s1 (Some q) = Ok (u', s2)) ->
    @like xr p u' -> @apply_updates xr q (emapt (fun d x => fmul d (fcast d (@fneg xr (@rate xr L (count_at n)))) x) u') = Ok q' ->
    point_of p q' /\ forall j, trust_step (lr (count_at n)) (layer q j) (layer u j) (layer q' j).
  Proof.
    intros Lu Fu Lq Fq Wp (s1 & s2 & Eu) Lu' Eq. destruct Lu as (Au & Wu), Lq as (Aq & Wq), Lu' as (Au' & Wu').
    destruct (@trust_spec P u q 0 s1) as (w & Ew & _ & Hw); [lra|rewrite <- (tdef_tmap aval u), <- (tdef_tmap aval q); unfold avals in *; congruence|exact Wu|exact Fu|exact Fq|].
    assert (w = u') as -> by (pose proof (Ok_inj _ _ (eq_trans (eq_sym Ew) Eu)) as E; now injection E). clear Ew Eu.
    rewrite HL in Eq. set (D := emapt _ u') in Eq. assert (WD : trwf D) by now apply emapt_wf. assert (AD : avals D = avals p) by (unfold D; rewrite emapt_avals; exact Au').
    destruct (@apply_updates_spec xr q D) as (r & Er & (Ar & Wr) & He); [|exact Wq|exact WD|].
    { unfold avals in Aq, AD. pose proof (f_equal (tmap snd) (eq_trans Aq (eq_sym AD))) as Hs. rewrite !tmap_tmap in Hs. exact Hs. }
    assert (r = q') as -> by exact (Ok_inj _ _ (eq_trans (eq_sym Er) Eq)). clear Er Eq. assert (Lq' : @like xr p q') by (split; [exact (eq_trans Ar Aq)|exact Wr]).
    assert (Lu : @like xr p u) by now split. assert (Lu' : @like xr p u') by now split. assert (Lq : @like xr p q) by now split.
    set (l := lr (count_at n)) in *.
    assert (K : forall j, (0 < length (layer p j))%nat -> exists k, (norm2 (layer q j) = 0 \/ norm2 (layer u j) = 0 -> k = 1) /\ (0 < norm2 (layer q j) -> 0 < norm2 (layer u j) -> k = norm2 (layer q j) / norm2 (layer u j)) /\
      forall i, (i < length (layer p j))%nat -> elt q' (j, i) = Some (Fin (nth i (layer q j) 0 - l * (k * nth i (layer u j) 0)))).
    { intros j Hj. pose proof (layer_len p u j Lu Wp) as Hlu. pose proof (layer_len p q j Lq Wp) as Hlq. pose proof (layer_len p u' j Lu' Wp) as Hlu'.
      assert (exists a b c, nth_error (leaves u) j = Some a /\ nth_error (leaves q) j = Some b /\ nth_error (leaves u') j = Some c) as (a & b & c & Ea & Eb & Ec).
      { unfold layer in Hlu, Hlq, Hlu'. unfold layer in Hj. nx. destruct (nth_error (leaves p) j); [|cbn in Hj; lia]. destruct (nth_error (leaves u) j) as [a|]; [|cbn in Hlu; lia]. destruct (nth_error (leaves q) j) as [b|]; [|cbn in Hlq; lia]. destruct (nth_error (leaves u') j) as [c|]; [|cbn in Hlu'; lia]. exists a, b, c. auto. }
      destruct (Hw j a b c Ea Eb Ec) as (k & Hk & (_ & Hd) & K1 & K2 & _). assert (Na : lnorm a = norm2 (layer u j)) by (unfold layer, lnorm; nx; now rewrite Ea). assert (Nb : lnorm b = norm2 (layer q j)) by (unfold layer, lnorm; nx; now rewrite Eb).
      pose proof (norm2_nonneg (layer u j)) as N1. pose proof (norm2_nonneg (layer q j)) as N2. rewrite Na, Nb, !Rmax_left in K1, K2 by lra.
      exists k. split; [exact K2|]. split; [auto|]. intros i Hi. assert (Eu : elt u (j, i) = Some (Fin (nth i (layer u j) 0))) by (apply layer_nth; [exact Fu|lia]). assert (Eq : elt q (j, i) = Some (Fin (nth i (layer q j) 0))) by (apply layer_nth; [exact Fq|lia]).
      assert (Eu' : elt u' (j, i) = Some (Fin (k * nth i (layer u j) 0))). { eapply eq_trans; [exact (leaf_elt u' j i c Ec)|]. nx. rewrite Hd, nth_error_map. pose proof (eq_trans (eq_sym (leaf_elt u j i a Ea)) Eu) as Eu2. nx. rewrite Eu2. reflexivity. }
      assert (ED : elt D (j, i) = Some (Fin (- l * (k * nth i (layer u j) 0)))). { unfold D. rewrite elt_emapt, Eu'. cbn [option_map]. f_equal. }
      rewrite (He (j, i) _ _ Eq ED). cbn zeta. rewrite !xconv. cbn [fadd XROps]. rewrite xadd_fin. do 2 f_equal. ring. }
    assert (Fq' : finite_tree q').
    { apply finite_of_elts. intros (j, i) x Hx. assert (Hi : (i < length (layer p j))%nat).
      { rewrite <- (layer_len p q' j Lq' Wp). unfold layer, elt in *. cbn [fst snd] in Hx. nx. destruct (nth_error (leaves q') j); [|discriminate]. rewrite map_length. apply nth_error_Some. congruence. }
      destruct (K j ltac:(lia)) as (k & _ & _ & Hk). pose proof (eq_trans (eq_sym (Hk i Hi)) Hx) as E. injection E as <-. eexists; reflexivity. }
    split; [split; assumption|]. intros j. pose proof (layer_len p u j Lu Wp) as Hlu. pose proof (layer_len p q j Lq Wp) as Hlq. pose proof (layer_len p q' j Lq' Wp) as Hlq'.
    destruct (Nat.eq_0_gt_0_cases (length (layer p j))) as [Z|Hj].
    { rewrite Z in *. assert (Z0 : forall l : list R, length l = 0%nat -> l = []) by (intros [|x m] E; [reflexivity|discriminate]). rewrite (Z0 _ Hlu), (Z0 _ Hlq), (Z0 _ Hlq'). split; intros; reflexivity. }
    destruct (K j Hj) as (k & K1 & K2 & Hk).
    assert (G : forall c, c = l * k -> layer q' j = vadd (layer q j) (map (Rmult (- c)) (layer u j))).
    { intros c ->. apply (nth_ext _ _ 0 0); [rewrite vadd_len by (rewrite map_length; lia); lia|]. intros i Hi. pose proof (eq_trans (eq_sym (layer_nth q' j i Fq' ltac:(lia))) (Hk i ltac:(lia))) as E. injection E as ->.
      rewrite nth_vadd by (rewrite map_length; lia). rewrite (nth_indep (map (Rmult (- (l * k))) (layer u j)) 0 (- (l * k) * 0)) by (rewrite map_length; lia). rewrite map_nth. ring. }
    split.
    - intros H. apply G. rewrite (K1 H). ring.
    - intros H1 H2. apply G. rewrite (K2 H1 H2). reflexivity.
  Qed.
  Lemma nth_calls {A} (gs qs : list A) n g q : nth_error gs n = Some g -> nth_error qs n = Some q -> nth_error (calls gs qs) n = Some (g, Some q).
  Proof. intros E1 E2. unfold calls. apply nth_error_zip; [exact E1|]. rewrite nth_error_map, E2. reflexivity. Qed.
  Lemma relative_loop p gs : trwf p -> finite_tree p -> Forall (point_of p) gs ->
    exists s0 qs sf, @init xr T p = Ok s0 /\ @train_loop xr T s0 p gs = Ok (qs, sf) /\ length qs = length gs /\ Forall (point_of p) qs /\
      forall n j, (n < length gs)%nat -> trust_step (lr (count_at n)) (layer (nth n (p :: qs) p) j) (directions dir p gs (p :: qs) n j) (layer (nth n qs p) j).
  Proof.
    intros Wp Fp Hg. assert (Hgl : Forall (@like xr p) gs) by (eapply Forall_impl; [|exact Hg]; intros a (H & _); exact H).
    destruct (total_loop T p gs Wp (T_total p Wp) Hgl) as (s0 & qs & outs & sf & Ei & El & Er & Hlq & Hlo & Hq & Ho & Hn).
    assert (Ht : @trains xr T p (calls gs (p :: qs)) outs) by (exists s0, sf; auto). apply T_split in Ht as (mid & m3 & E1 & E2 & ->).
    assert (Hpp : point_of p p) by (split; [split; [reflexivity|exact Wp]|exact Fp]).
    assert (Hfl : Forall (@like xr p) (p :: qs)) by (constructor; [apply Hpp|exact Hq]).
    assert (Hok : @hist_ok xr false p (calls gs (p :: qs))) by (apply (@hist_calls xr); assumption).
    assert (Hlc : length (calls gs (p :: qs)) = length gs) by (unfold calls; rewrite combine_length, map_length; cbn [length]; nx; lia).
    destruct (HA p (calls gs (p :: qs)) Wp Hok) as (mid' & E1' & Hlm & Hkm & Hm). assert (mid' = mid) as -> by exact (trains_det _ _ _ _ _ E1' E1). clear E1'. nx. rewrite Hlc in Hlm.
    destruct (trust_total p mid (calls gs (p :: qs)) Wp Hok Hkm ltac:(nx; lia)) as (m3' & E2' & Hk3). assert (m3' = m3) as -> by exact (trains_det _ _ _ _ _ E2' E2). clear E2'.
    pose proof (@times_rate_length xr L m3) as Hlt. nx. rewrite Hlt in Hlo. clear Hlt.
    assert (Hgn : forall k, (k < length gs)%nat -> point_of p (nth k gs p)) by (intros k Hk; rewrite Forall_forall in Hg; apply Hg; nx; now apply nth_In).
    assert (Hqn : forall k, (k <= length gs)%nat -> @like xr p (nth k (p :: qs) p)) by (intros k Hk; rewrite Forall_forall in Hfl; nx; apply Hfl, nth_In; cbn [length]; lia).
    assert (Step : forall n, (n < length gs)%nat -> (forall k, (k <= n)%nat -> finite_tree (nth k (p :: qs) p)) ->
      point_of p (nth n qs p) /\ forall j, trust_step (lr (count_at n)) (layer (nth n (p :: qs) p) j) (directions dir p gs (p :: qs) n j) (layer (nth n qs p) j)).
    { intros n Hn1 HF. set (q := nth n (p :: qs) p) in *. set (u := nth n mid p). set (u' := nth n m3 p).
      assert (Eq : nth_error (p :: qs) n = Some q) by (apply nth_error_nth'; cbn [length]; lia). assert (Eu : nth_error mid n = Some u) by (apply nth_error_nth'; lia). assert (Eu' : nth_error m3 n = Some u') by (apply nth_error_nth'; lia).
      assert (Eg : nth_error gs n = Some (nth n gs p)) by (apply nth_error_nth'; lia).
      assert (Lu : @like xr p u) by (rewrite Forall_forall in Hkm; apply Hkm; eapply nth_error_In; exact Eu). assert (Lu' : @like xr p u') by (rewrite Forall_forall in Hk3; apply Hk3; eapply nth_error_In; exact Eu').
      assert (Du : forall j i, (i < length (layer p j))%nat -> elt u (j, i) = Some (Fin (dir (fun k => nth i (layer (nth k gs p) j) 0) (fun k => nth i (layer (nth k (p :: qs) p) j) 0) n))).
      { intros j i Hi. destruct (Hm n (j, i) (fun k => nth i (layer (nth k gs p) j) 0) (fun k => nth i (layer (nth k (p :: qs) p) j) 0)) as (y & Hy & Ey).
        - exact (eq_ind_r (fun m => (n < m)%nat) Hn1 Hlc).
        - intros k Hk. unfold helt. assert (Ek : nth_error (calls gs (p :: qs)) k = Some (nth k gs p, Some (nth k (p :: qs) p))) by (apply nth_calls; apply nth_error_nth'; cbn [length]; lia). nx. rewrite Ek. cbn [fst]. apply layer_nth; [apply Hgn; lia|]. rewrite (layer_len p _ j (proj1 (Hgn k ltac:(lia))) Wp). exact Hi.
        - intros _ k Hk. unfold hpelt. assert (Ek : nth_error (calls gs (p :: qs)) k = Some (nth k gs p, Some (nth k (p :: qs) p))) by (apply nth_calls; apply nth_error_nth'; cbn [length]; lia). nx. rewrite Ek. cbn [snd]. apply layer_nth; [apply HF; lia|]. rewrite (layer_len p _ j (Hqn k ltac:(lia)) Wp). exact Hi.
        - unfold oelt in Hy. nx. rewrite Eu in Hy. rewrite Hy, Ey. reflexivity. }
      assert (Fu : finite_tree u).
      { apply finite_of_elts. intros (j, i) x Hx. assert (Hi : (i < length (layer p j))%nat).
        { rewrite <- (layer_len p u j Lu Wp). unfold layer, elt in *. cbn [fst snd] in Hx. nx. destruct (nth_error (leaves u) j); [|discriminate]. rewrite map_length. apply nth_error_Some. congruence. }
        pose proof (eq_trans (eq_sym (Du j i Hi)) Hx) as E. injection E as <-. eexists; reflexivity. }
      assert (Dl : forall j, layer u j = directions dir p gs (p :: qs) n j).
      { intros j. unfold directions. apply layer_ext; [exact u|exact Fu|rewrite map_length, seq_length; symmetry; exact (layer_len p u j Lu Wp)|]. intros i Hi. rewrite map_length, seq_length in Hi. eapply eq_trans; [exact (Du j i Hi)|]. rewrite nth_map_seq by exact Hi. reflexivity. }
      assert (Fe : nth_error (feed mid (calls gs (p :: qs))) n = Some (u, Some q)).
      { unfold feed. apply nth_error_zip; [exact Eu|]. rewrite nth_error_map, (nth_calls gs (p :: qs) n _ q Eg Eq). reflexivity. }
      destruct E2 as (t0 & t1 & _ & Er2). destruct (@run_nth xr _ _ _ _ _ Er2 n u (Some q) Fe) as (s1 & s2 & o & Eo & Eup). nx. rewrite Eu' in Eo. injection Eo as <-.
      pose proof (@nth_times_rate xr L m3 n u' Eu') as Et. destruct (Hn n q _ Eq Et) as (q' & Eq' & Eap). assert (nth n qs p = q') as -> by (apply nth_error_nth; exact Eq').
      destruct (one_step p u u' q q' n Lu Fu (Hqn n ltac:(lia)) (HF n ltac:(lia)) Wp ltac:(eauto) Lu' Eap) as (Hp' & Hs). split; [exact Hp'|]. intros j. rewrite <- Dl. apply Hs. }
    assert (HF : forall k, (k <= length gs)%nat -> finite_tree (nth k (p :: qs) p)).
    { intros k. induction k as [k IH] using lt_wf_ind. intros Hk. destruct k as [|k]; [exact Fp|]. apply (Step k ltac:(lia)). intros i Hi. apply IH; lia. }
    exists s0, qs, sf. split; [exact Ei|]. split; [exact El|]. split; [exact Hlq|]. split.
    { apply Forall_forall. intros u Hu. destruct (In_nth _ _ p Hu) as (k & Hk & <-). nx. apply (Step k ltac:(lia)). intros i Hi. apply HF. lia. }
    intros n j Hn1. apply (Step n Hn1). intros k Hk. apply HF. lia.
  Qed.
End Rel.

(** ** What such a run does to a layer *)
Definition product (f : nat -> R) (n : nat) : R := fold_right Rmult 1 (map f (seq 0 n)).
Lemma product_S f n : product f (S n) = product f n * f n.
Proof.
  unfold product. rewrite seq_S, map_app, fold_right_app. cbn [map fold_right plus]. rewrite Rmult_1_r. generalize (map f (seq 0 n)) as l. induction l as [|a l IH]; cbn [fold_right]; [ring|]. rewrite IH. ring.
Qed.
Lemma vsub_of_vadd a w : length w = length a -> P_regret.vsub (vadd a w) a = w.
Proof. unfold P_regret.vsub, vadd. revert w. induction a as [|x a IH]; intros [|y w] E; try discriminate; [reflexivity|]. cbn. f_equal; [lra|]. apply IH. now injection E. Qed.
Lemma dist_tri a b c : length a = length b -> length b = length c -> norm2 (P_regret.vsub a c) <= norm2 (P_regret.vsub a b) + norm2 (P_regret.vsub b c).
Proof.
  intros H1 H2. replace (P_regret.vsub a c) with (vadd (P_regret.vsub a b) (P_regret.vsub b c)).
  - apply norm2_triangle. rewrite !(vsub_length _ _ (length b)) by congruence. reflexivity.
  - clear -H1 H2. unfold P_regret.vsub, vadd. revert b c H1 H2. induction a as [|x a IH]; intros [|y b] [|z c] H1 H2; try discriminate; [reflexivity|]. cbn. f_equal; [lra|]. apply IH; [now injection H1|now injection H2].
Qed.
Lemma dist_sym a b : length a = length b -> norm2 (P_regret.vsub a b) = norm2 (P_regret.vsub b a).
Proof.
  intros H. replace (P_regret.vsub a b) with (map (Rmult (-1)) (P_regret.vsub b a)); [rewrite norm2_scal; rewrite Rabs_left by lra; lra|].
  clear -H. unfold P_regret.vsub. revert b H. induction a as [|x a IH]; intros [|y b] H; try discriminate; [reflexivity|]. cbn. f_equal; [lra|]. apply IH. now injection H.
Qed.
Lemma vsub_zero a : P_regret.vsub a (map (fun _ => 0) a) = a.
Proof. unfold P_regret.vsub. induction a as [|x a IH]; [reflexivity|]. cbn. f_equal; [lra|exact IH]. Qed.
Lemma norm_tri a b : length a = length b -> norm2 a <= norm2 b + norm2 (P_regret.vsub a b).
Proof.
  intros H. replace a with (vadd b (P_regret.vsub a b)) at 1.
  - apply norm2_triangle. rewrite (vsub_length _ _ (length b)) by congruence. reflexivity.
  - clear -H. unfold P_regret.vsub, vadd. revert b H. induction a as [|x a IH]; intros [|y b] H; try discriminate; [reflexivity|]. cbn. f_equal; [lra|]. apply IH. now injection H.
Qed.
Lemma vadd_zero a d c : length d = length a -> norm2 d = 0 -> vadd a (map (Rmult c) d) = a.
Proof.
  intros H Z. apply norm2_0 in Z. revert a H. unfold vadd. induction Z as [|x d Hx Z IH]; intros [|y a] H; try discriminate; [reflexivity|]. cbn. f_equal; [rewrite Hx; lra|]. apply IH. now injection H.
Qed.
Lemma trust_moves l a d b : length d = length a -> trust_step l a d b -> 0 < norm2 a ->
  length b = length a /\ (norm2 d = 0 -> b = a) /\ (0 < norm2 d -> norm2 (P_regret.vsub b a) = Rabs l * norm2 a) /\ (1 - Rabs l) * norm2 a <= norm2 b <= (1 + Rabs l) * norm2 a.
Proof.
  intros Hd (S1 & S2) Ha. pose proof (Rabs_pos l) as Hl. destruct (Req_dec (norm2 d) 0) as [Z|Z].
  - rewrite (vadd_zero a d (- l) Hd Z) in S1. rewrite (S1 (or_intror Z)). split; [reflexivity|]. split; [reflexivity|]. split; [lra|nra].
  - assert (Hp : 0 < norm2 d) by (pose proof (norm2_nonneg d); lra). specialize (S2 Ha Hp). set (c := - (l * (norm2 a / norm2 d))) in *.
    assert (Ev : norm2 (P_regret.vsub b a) = Rabs l * norm2 a).
    { rewrite S2, vsub_of_vadd by (rewrite map_length; exact Hd). rewrite norm2_scal. unfold c. rewrite Rabs_Ropp, Rabs_mult, (Rabs_right (norm2 a / norm2 d)) by (apply Rle_ge, Rlt_le, Rdiv_lt_0_compat; lra). field. lra. }
    assert (Hlb : length b = length a) by (rewrite S2; apply vadd_len; rewrite map_length; congruence).
    split; [exact Hlb|]. split; [lra|]. split; [auto|]. pose proof (norm_tri a b (eq_sym Hlb)) as T1. pose proof (norm_tri b a Hlb) as T2. rewrite (dist_sym a b (eq_sym Hlb)) in T1. lra.
Qed.
Lemma directions_len dir p gs qs n j : length (directions dir p gs qs n j) = length (layer p j).
Proof. unfold directions. now rewrite map_length, seq_length. Qed.

(*@ C99_layers : Put scale_by_trust_ratio() and a learning rate (fixed or schedule) behind any transformations that propose a finite direction d for each element from the history of its gradients and values. Then for every finite parameters and gradients training never fails and everything stays finite, and at every step each leaf a (a layer, as a vector) becomes a - lr (|a|/|d|) d, or a - lr d when a or d is zero. *)
Lemma layer_steps : forall `{P : Platform} (As : list GT) (L : lrate) (lr : Z -> R) (dir : (nat -> R) -> (nat -> R) -> nat -> R) (p : tree tensor) (gs : list (tree tensor)), (forall c, rate L c = Fin (lr c)) ->
  emits false (chain_gt As) (fun g q n y => y = Fin (dir g q n)) -> trwf p -> finite_tree p -> Forall (P_regret.point_of p) gs ->
  let T := chain_gt (As ++ [scale_by_trust_ratio (Fin 0); scale_by_learning_rate L]) in
  exists s0 qs sf, init T p = Ok s0 /\ train_loop T s0 p gs = Ok (qs, sf) /\ length qs = length gs /\ Forall (P_regret.point_of p) qs /\
    forall n j, (n < length gs)%nat -> trust_step (lr (count_at n)) (layer (nth n (p :: qs) p) j) (directions dir p gs (p :: qs) n j) (layer (nth n qs p) j).
Proof. intros P As L lr dir p gs HL HA Wp Fp Hg T. exact (relative_loop As L lr HL dir HA p gs Wp Fp Hg). Qed.
(*@ C99_lamb : lamb is such an optimiser, its direction being Adam's plus weight_decay times the parameter (0 <= b1, b2 < 1, eps > 0, eps_root >= 0; any learning rate, also negative or zero, and any weight_decay). *)
Lemma lamb_steps : forall `{P : Platform} (L : lrate) (lr : Z -> R) (b1 b2 eps er wd : R) (p : tree tensor) (gs : list (tree tensor)), (forall c, rate L c = Fin (lr c)) ->
  0 <= b1 < 1 -> 0 <= b2 < 1 -> 0 < eps -> 0 <= er -> trwf p -> finite_tree p -> Forall (P_regret.point_of p) gs ->
  exists T s0 qs sf, lamb L (Fin b1) (Fin b2) (Fin eps) (Fin er) (Fin wd) = Ok T /\ init T p = Ok s0 /\ train_loop T s0 p gs = Ok (qs, sf) /\ length qs = length gs /\ Forall (P_regret.point_of p) qs /\
    forall n j, (n < length gs)%nat -> trust_step (lr (count_at n)) (layer (nth n (p :: qs) p) j) (directions (fun g q n => adam_dir b1 b2 eps er g n + wd * q n) p gs (p :: qs) n j) (layer (nth n qs p) j).
Proof.
  intros P L lr b1 b2 eps er wd p gs HL H1 H2 He Hr Wp Fp Hg.
  destruct (layer_steps [@scale_by_adam (XROps P) (Fin b1) (Fin b2) (Fin eps) (Fin er); @add_decayed_weights (XROps P) (Fin wd)] L lr (fun g q n => adam_dir b1 b2 eps er g n + wd * q n) p gs HL) as (s0 & qs & sf & R1); [|assumption..|].
  - eapply emits_impl; [|apply (emits_cons false _ _ _ _ (emits_weaken _ _ (adam_dir_emits b1 b2 eps er H1 H2 He Hr)) (emits_one _ _ _ (wd_emits wd)))].
    cbn beta. intros g q n y Hy. exact (Hy (adam_dir b1 b2 eps er g) ltac:(intros i _ z ->; reflexivity)).
  - eexists _, s0, qs, sf. split; [unfold lamb, chain; rewrite f0; reflexivity|exact R1].
Qed.
(*@ C99_relative : Along every run whose layers move by such steps, lr being the rates of the steps, the norm of a non-zero layer changes by a factor between 1 - |lr| and 1 + |lr| per step whatever the gradients; the layer moves by exactly |lr| times its norm, however small the gradients are, unless the proposed direction is zero, when it does not move. If every |lr| < 1 a non-zero layer never becomes zero and its norm after n steps is between the products of the (1 - |lr|) and of the (1 + |lr|) times the initial one. *)
Lemma layer_norms : forall `{P : Platform} (lr : Z -> R) (dir : (nat -> R) -> (nat -> R) -> nat -> R) (p : tree tensor) (gs qs : list (tree tensor)) (j : nat), trwf p -> Forall (P_regret.point_of p) qs -> length qs = length gs ->
  (forall n, (n < length gs)%nat -> trust_step (lr (count_at n)) (layer (nth n (p :: qs) p) j) (directions dir p gs (p :: qs) n j) (layer (nth n qs p) j)) ->
  (forall n, (n < length gs)%nat -> let a := layer (nth n (p :: qs) p) j in let b := layer (nth n qs p) j in let d := directions dir p gs (p :: qs) n j in let l := Rabs (lr (count_at n)) in 0 < norm2 a ->
     (0 < norm2 d -> norm2 (P_regret.vsub b a) = l * norm2 a) /\ (norm2 d = 0 -> b = a) /\ (1 - l) * norm2 a <= norm2 b <= (1 + l) * norm2 a) /\
  ((forall c, Rabs (lr c) < 1) -> 0 < norm2 (layer p j) -> forall n, (n <= length gs)%nat ->
     0 < product (fun i => 1 - Rabs (lr (count_at i))) n /\
     norm2 (layer p j) * product (fun i => 1 - Rabs (lr (count_at i))) n <= norm2 (layer (nth n (p :: qs) p) j) <= norm2 (layer p j) * product (fun i => 1 + Rabs (lr (count_at i))) n).
Proof.
  intros P lr dir p gs qs j Wp Hq Hl HS.
  assert (Len : forall n, (n <= length gs)%nat -> length (layer (nth n (p :: qs) p) j) = length (layer p j)).
  { intros [|n] Hn; [reflexivity|]. cbn [nth]. nx. apply (layer_len p); [|exact Wp]. rewrite Forall_forall in Hq. apply Hq. nx. apply nth_In. lia. }
  assert (A : forall n, (n < length gs)%nat -> let a := layer (nth n (p :: qs) p) j in let b := layer (nth n qs p) j in let d := directions dir p gs (p :: qs) n j in let l := Rabs (lr (count_at n)) in 0 < norm2 a ->
     (0 < norm2 d -> norm2 (P_regret.vsub b a) = l * norm2 a) /\ (norm2 d = 0 -> b = a) /\ (1 - l) * norm2 a <= norm2 b <= (1 + l) * norm2 a).
  { intros n Hn a b d l Ha. destruct (trust_moves (lr (count_at n)) a d b) as (_ & H1 & H2 & H3); [unfold d, a; rewrite directions_len; nx; rewrite Len by lia; reflexivity|exact (HS n Hn)|exact Ha|]. auto. }
  split; [exact A|]. intros Hlr Hp n. induction n as [|n IH]; intros Hn.
  - change (nth 0 (p :: qs) p) with p. unfold product. cbn [seq map fold_right]. lra.
  - destruct (IH ltac:(lia)) as (I1 & I2 & I3). rewrite !product_S. change (nth (S n) (p :: qs) p) with (nth n qs p). pose proof (Hlr (count_at n)) as B. pose proof (Rabs_pos (lr (count_at n))) as B2.
    set (l := Rabs (lr (count_at n))) in *. set (u := product (fun i => 1 - _) n) in *. set (v := product (fun i => 1 + _) n) in *.
    assert (Ha : 0 < norm2 (layer (nth n (p :: qs) p) j)) by (eapply Rlt_le_trans; [apply (Rmult_lt_0_compat _ _ Hp I1)|exact I2]).
    destruct (A n ltac:(lia) Ha) as (_ & _ & A1 & A2). fold l in A1, A2. split; [apply Rmult_lt_0_compat; lra|]. split.
    + eapply Rle_trans; [|exact A1]. rewrite <- Rmult_assoc, (Rmult_comm (1 - l)). apply Rmult_le_compat_r; lra.
    + eapply Rle_trans; [exact A2|]. rewrite <- Rmult_assoc, (Rmult_comm (1 + l)). apply Rmult_le_compat_r; lra.
Qed.
(*@ C99_cannot_settle : A finding: with a learning rate of constant size l > 0 such a run cannot settle at any non-zero value v of a layer: of any two consecutive values of the layer, one is at distance at least l |v| / (2 + l) from v, unless the direction proposed between them is exactly zero, or the layer is: the gradients do not slow it down however small they become, only a schedule does. *)
Lemma cannot_settle : forall (l : R) (a d b v : list R), length d = length a -> length v = length a -> trust_step l a d b -> 0 < norm2 a -> 0 < norm2 d -> 0 < Rabs l ->
  Rabs l * norm2 v / (2 + Rabs l) <= Rmax (norm2 (P_regret.vsub a v)) (norm2 (P_regret.vsub b v)).
Proof.
  intros l a d b v Hd Hv HS Ha Hdp Hl. destruct (trust_moves l a d b Hd HS Ha) as (Hb & _ & H2 & _). specialize (H2 Hdp).
  pose proof (dist_tri b v a ltac:(congruence) ltac:(congruence)) as T1. rewrite (dist_sym v a Hv) in T1. pose proof (norm_tri v a Hv) as T2. rewrite (dist_sym v a Hv) in T2.
  pose proof (Rmax_l (norm2 (P_regret.vsub a v)) (norm2 (P_regret.vsub b v))) as M1. pose proof (Rmax_r (norm2 (P_regret.vsub a v)) (norm2 (P_regret.vsub b v))) as M2. set (M := Rmax _ _) in *.
  apply (Rmult_le_reg_r (2 + Rabs l)); [lra|]. unfold Rdiv. rewrite Rmult_assoc, Rinv_l, Rmult_1_r by lra. assert (Rabs l * norm2 v <= Rabs l * (norm2 a + M)) by (apply Rmult_le_compat_l; lra). lra.
Qed.
(*@ex C99_example *)
Lemma lamb_example : forall `{P : Platform}, let p := Leaf (mkT F32 [2%nat] [Fin 3; Fin 4]) in let g := Leaf (mkT F32 [2%nat] [Fin 1; Fin 0]) in
  exists T s0 q sf, lamb (LConst (Fin (1/10))) (Fin (9/10)) (Fin (999/1000)) (Fin 1) (Fin 0) (Fin 0) = Ok T /\ init T p = Ok s0 /\ train_loop T s0 p [g] = Ok ([q], sf) /\ layer p 0 = [3; 4] /\ layer q 0 = [5/2; 4].
Proof.
  intros P p g. destruct (@lamb_steps P (@LConst (XROps P) (Fin (1/10))) (fun _ => 1/10) (9/10) (999/1000) 1 0 0 p [g]) as (T & s0 & qs & sf & ET & Ei & El & Hl & _ & HS);
    [reflexivity|lra|lra|lra|lra|repeat constructor|repeat constructor; eexists; reflexivity|constructor; [split; [split; [reflexivity|repeat constructor]|repeat constructor; eexists; reflexivity]|constructor]|].
  destruct qs as [|q [|? ?]]; try discriminate Hl. exists T, s0, q, sf. split; [exact ET|]. split; [exact Ei|]. split; [exact El|]. split; [reflexivity|].
  specialize (HS 0%nat 0%nat ltac:(cbn; lia)). change (nth 0 (p :: [q]) p) with p in HS. change (nth 0 [q] p) with q in HS. unfold directions in HS. change (layer p 0) with [3; 4] in HS. cbn [length seq map] in HS.
  rewrite !adam_dir_0 in HS by (try lra; change (nth 0 [g] p) with g; change (layer g 0) with [1; 0]; cbn [nth]; lra). change (nth 0 [g] p) with g in HS. change (layer g 0) with [1; 0] in HS. cbn [nth] in HS.
  destruct HS as (_ & HS).
  assert (N1 : norm2 [3; 4] = 5). { unfold norm2. cbn [map]. rewrite !rsum_cons, rsum_nil. etransitivity; [|apply (sqrt_square 5); lra]. f_equal. ring. }
  set (x := 1 / (1 + 1) + 0 * _) in HS. set (y := 0 / (0 + 1) + 0 * _) in HS. replace x with (1/2) in HS by (unfold x; field). replace y with 0 in HS by (unfold y; field). clear x y.
  assert (N2 : norm2 [1/2; 0] = 1/2). { unfold norm2. cbn [map]. rewrite !rsum_cons, rsum_nil. etransitivity; [|apply (sqrt_square (1/2)); lra]. f_equal. ring. }
  rewrite N1, N2 in HS. rewrite (HS ltac:(lra) ltac:(lra)). unfold vadd. cbn [map combine fst snd]. f_equal; [field|f_equal; ring].
Qed.
