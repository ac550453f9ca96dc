(** The optimisers of alias.py. *)
From Verif Require Export P_look P_noise M_alias P_sm3.
From Coq Require Import List Psatz.
Import ListNotations.
Open Scope R_scope.
(*@header
From Coq Require Import List.
Import ListNotations.
Open Scope R_scope.
*)

(** ** Composition of element-wise laws *)
Section Emits.
  Context {P : Platform}.
  Notation xr := (XROps P).
  Lemma nth_feed {A B} (mid : list A) (H : list (A * B)) n : length mid = length H -> nth_error (feed mid H) n = match nth_error mid n, nth_error H n with Some a, Some h => Some (a, snd h) | _, _ => None end.
  Proof.
    unfold feed. revert H n. induction mid as [|a mid IH]; intros [|h H] n E; try discriminate; [now destruct n|]. destruct n; [reflexivity|]. cbn. apply IH. now injection E.
  Qed.
  Lemma emits_weaken T Rel : @emits P true T Rel -> @emits P false T Rel.
  Proof.
    intros HE p H Wp HH. destruct (HE p H Wp) as (outs & Ht & Hl & Ho & He).
    - eapply Forall_impl; [|exact HH]. intros h (H1 & _). split; [exact H1|discriminate].
    - exists outs. split; [exact Ht|]. split; [exact Hl|]. split; [exact Ho|]. intros n pos g q Hn Hg Hq. apply (He n pos g q Hn Hg). discriminate.
  Qed.
  Lemma hist_feed np p mid H : length mid = length H -> Forall (@like xr p) mid -> @hist_ok xr np p H -> @hist_ok xr np p (feed mid H).
  Proof.
    intros Hl Hm HH. unfold feed. revert H Hl HH. induction Hm as [|a mid Ha Hm IH]; intros [|h H] Hl HH; try discriminate; [constructor|]. pose proof (Forall_inv HH) as (_ & H1). apply Forall_inv_tail in HH. cbn.
    constructor; [split; [exact Ha|exact H1]|]. apply IH; [now injection Hl|exact HH].
  Qed.
  Lemma emits_cons np T1 Ts (R1 R2 : (nat -> R) -> (nat -> R) -> nat -> XR -> Prop) : @emits P np T1 R1 -> @emits P np (chain_gt Ts) R2 ->
    @emits P np (chain_gt (T1 :: Ts)) (fun g q n y => forall h, (forall i, (i <= n)%nat -> forall z, R1 g q i z -> z = Fin (h i)) -> R2 h q n y).
  Proof.
    intros E1 E2 p H Wp HH. destruct (E1 p H Wp HH) as (mid & Ht & Hl & Ho & He).
    destruct (E2 p (feed mid H) Wp (hist_feed np p mid H Hl Ho HH)) as (outs & Ht2 & Hl2 & Ho2 & He2). exists outs.
    assert (Hlf : length (feed mid H) = length H) by (unfold feed; rewrite combine_length, map_length; lia).
    split; [apply chain_trains; eauto|]. split; [lia|]. split; [exact Ho2|]. intros n pos g q Hn Hg Hq.
    assert (Hy : exists y, oelt outs n pos = Some y).
    { unfold oelt. destruct (nth_error outs n) as [o|] eqn:Eo; [|apply nth_error_None in Eo; lia]. specialize (Hg n (le_n _)). unfold helt in Hg. destruct (nth_error H n) as [h|] eqn:Eh; [|discriminate].
      rewrite Forall_forall in Ho2. destruct (Ho2 o (nth_error_In _ _ Eo)) as (Ha & Hw). pose proof (proj1 (Forall_forall _ _) HH h (nth_error_In _ _ Eh)) as ((Hb & Hw') & _).
      assert (elt o pos <> None). { apply (elt_like o (fst h)); auto; congruence. } destruct (elt o pos); [eauto|easy]. }
    destruct Hy as (y & Ey). exists y. split; [exact Ey|]. intros h Hh.
    destruct (He2 n pos h q) as (y' & Ey' & Hy'); [lia| | |].
    - intros i Hi. destruct (He i pos g q) as (z & Ez & Hz); [lia|intros; apply Hg; lia|intros; apply Hq; auto; lia|]. rewrite (Hh i Hi z Hz) in Ez. unfold helt. rewrite nth_feed by exact Hl. unfold oelt in Ez. destruct (nth_error mid i); [|discriminate].
      destruct (nth_error H i) eqn:Eh; [exact Ez|]. apply nth_error_None in Eh. lia.
    - intros Hnp i Hi. rewrite <- (Hq Hnp i Hi). unfold hpelt. rewrite nth_feed by exact Hl. destruct (nth_error H i) as [[u par]|] eqn:Eh; [|apply nth_error_None in Eh; lia]. destruct (nth_error mid i) eqn:Em; [reflexivity|]. apply nth_error_None in Em. assert (i < length H)%nat by (apply nth_error_Some; congruence). lia.
    - rewrite Ey in Ey'. injection Ey' as <-. exact Hy'.
  Qed.
  Lemma emits_one np T R1 : @emits P np T R1 -> @emits P np (chain_gt [T]) R1.
  Proof. intros E p H Wp HH. destruct (E p H Wp HH) as (outs & Ht & Hr). exists outs. split; [now apply chain_one_gt|exact Hr]. Qed.
End Emits.

(** The learning rate in force at count [c]. *)
Definition rate `{O : Ops} (L : lrate) (c : Z) : F := match L with LConst x => x | LSched f => f c end.
(** Count of the n-th call, from 0. *)
Definition count_at (n : nat) : Z := Z.min (Z.of_nat n) (2 ^ 31 - 1).

Section Rate.
  Context {P : Platform}.
  Notation xr := (XROps P).
  Lemma emits_lr (L : @lrate xr) (lr : Z -> R) : (forall c, rate L c = Fin (lr c)) -> @emits P true (scale_by_learning_rate L) (fun g _ n y => y = Fin (- lr (count_at n) * g n)).
  Proof.
    intros HL p H Wp HH. destruct L as [x|f]; cbn [rate scale_by_learning_rate] in *.
    - destruct (refines_trains true _ _ (@refines_scale xr (fneg x)) p H Wp HH) as (outs & Ht & Hl & Ho & He). exists outs. split; [exact Ht|]. split; [exact Hl|]. split; [exact Ho|]. intros n pos g q Hn Hg _.
      destruct (He n pos (fun i => Fin (g i)) (fun _ => fzero) Hn Hg) as (z & _ & E); [discriminate|]. eexists. split; [exact E|]. cbn [mout m_fun m_step fst snd mst]. rewrite (HL (count_at n)). reflexivity.
    - destruct (@schedule_spec xr (fun c => fneg (f c)) p H Wp HH) as (outs & Ht & Hl & Ho & He). exists outs. split; [exact Ht|]. split; [exact Hl|]. split; [exact Ho|]. intros n pos g q Hn Hg _.
      eexists. split; [apply (He n pos (fun i => Fin (g i)) Hn Hg)|]. cbn beta zeta. unfold count_at. rewrite HL. reflexivity.
  Qed.
  Lemma emits_opt_trace (m : option R) nest : @emits P true (@opt_trace xr (option_map Fin m) nest) (fun g _ n y => y = Fin (match m with None => g n | Some b => let t := sum_f_R0 (fun i => b ^ (n - i) * g i) n in if nest then g n + b * t else t end)).
  Proof.
    destruct m as [b|]; cbn [option_map opt_trace]; [apply trace_closed_form|]. eapply refines_emits; [apply refines_identity|]. reflexivity.
  Qed.
  (** scaling rule, then -lr *)
  Lemma emits_scaled np T R1 (L : @lrate xr) lr : (forall c, rate L c = Fin (lr c)) -> @emits P np T R1 ->
    @emits P np (chain_gt [T; scale_by_learning_rate L]) (fun g q n y => forall h, (forall i, (i <= n)%nat -> forall z, R1 g q i z -> z = Fin (h i)) -> y = Fin (- lr (count_at n) * h n)).
  Proof.
    intros HL E. assert (E2 : @emits P np (chain_gt [scale_by_learning_rate L]) (fun g _ n y => y = Fin (- lr (count_at n) * g n))) by (apply emits_one; destruct np; [now apply emits_lr|now apply emits_weaken, emits_lr]).
    apply (emits_cons np _ _ _ _ E E2).
  Qed.
End Rate.

(** ** sgd *)
(** The momentum trace of the gradients (the gradient itself without momentum). *)
Definition momentum_of (m : option R) (nest : bool) (g : nat -> R) (n : nat) : R :=
  match m with None => g n | Some b => let t := sum_f_R0 (fun i => b ^ (n - i) * g i) n in if nest then g n + b * t else t end.
(*@ C59_sgd : for every momentum (or none), nesterov or not, every fixed or scheduled learning rate: the n-th update (n from 0) is minus the learning rate at count n times the momentum trace of the gradients. *)
Lemma sgd_emits : forall `{P : Platform} (L : lrate) (lr : Z -> R) (m : option R) (nest : bool), (forall c, rate L c = Fin (lr c)) ->
  exists T, sgd L (option_map Fin m) nest = Ok T /\ emits true T (fun g _ n y => y = Fin (- lr (count_at n) * momentum_of m nest g n)).
Proof.
  intros P L lr m nest HL. eexists. split; [reflexivity|]. eapply emits_impl; [|apply (emits_scaled true _ _ L lr HL (emits_opt_trace m nest))].
  cbn beta. intros g q n y Hy. apply (Hy (momentum_of m nest g)). intros i _ z ->. reflexivity.
Qed.
(** The loop update / apply_updates, element by element. *)
Lemma last_cons' {A} (a q : A) l : last (a :: l) q = last l a.
Proof. revert a. induction l as [|x l IH]; intros a; [reflexivity|]. change (last (x :: l) q = last (x :: l) a). rewrite IH. symmetry. clear. revert a x. induction l as [|y l IH]; intros a x; [reflexivity|]. change (last (y :: l) a = last (y :: l) x). rewrite IH. symmetry. apply IH. Qed.
Lemma train_loop_app `{O : Ops} T : forall gs1 s q gs2, train_loop T s q (gs1 ++ gs2) =
  (let* (qs1, s1) := train_loop T s q gs1 in let* (qs2, s2) := train_loop T s1 (last qs1 q) gs2 in Ok (qs1 ++ qs2, s2)).
Proof.
  induction gs1 as [|g gs1 IH]; intros s q gs2; cbn [app train_loop rbind].
  - change (last [] q) with q. destruct (train_loop T s q gs2) as [[? ?]|]; reflexivity.
  - destruct (update T g s (Some q)) as [[lu s']|]; cbn [rbind]; [|reflexivity]. destruct (apply_updates q lu) as [q'|]; cbn [rbind]; [|reflexivity]. rewrite IH.
    destruct (train_loop T s' q' gs1) as [[qs1 s1]|]; cbn [rbind]; [|reflexivity]. rewrite last_cons'.
    destruct (train_loop T s1 (last qs1 q') gs2) as [[? ?]|]; reflexivity.
Qed.
Lemma combine_snoc {A B} (l : list A) (m : list B) a b c : length m = S (length l) -> combine (l ++ [a]) (m ++ [b]) = combine l m ++ [(a, last m c)].
Proof.
  revert m. induction l as [|x l IH]; intros [|y m] E; try discriminate; cbn in E.
  - destruct m; [|discriminate]. reflexivity.
  - cbn [app combine]. rewrite IH by now injection E. destruct m as [|y' m]; [discriminate|]. reflexivity.
Qed.
Lemma last_map' {A B} (f : A -> B) l d : last (map f l) (f d) = f (last l d).
Proof. induction l as [|x [|y l] IH]; [reflexivity..|]. exact IH. Qed.
Lemma nth_error_last {A} (l : list A) d : nth_error (d :: l) (length l) = Some (last l d).
Proof. revert d. induction l as [|x l IH]; intros d; [reflexivity|]. cbn [length nth_error]. rewrite last_cons'. apply IH. Qed.
Lemma combine_firstn_l {A B} (l : list A) (m : list B) : combine l m = combine l (firstn (length l) m).
Proof. revert m. induction l as [|x l IH]; intros [|y m]; cbn; [reflexivity..|]. now rewrite IH. Qed.
Lemma emits_loop : forall `{P : Platform} np T (Rel : (nat -> R) -> (nat -> R) -> nat -> XR -> Prop), emits np T Rel -> forall (p : tree tensor) (gs : list (tree tensor)), trwf p -> Forall (like p) gs ->
  exists s0 qs sf, init T p = Ok s0 /\ train_loop T s0 p gs = Ok (qs, sf) /\ length qs = length gs /\ Forall (like p) qs /\
    forall pos n (g q : nat -> R), (n < length gs)%nat -> (forall i, (i <= n)%nat -> oelt gs i pos = Some (Fin (g i))) -> (forall i, (i <= n)%nat -> oelt (p :: qs) i pos = Some (Fin (q i))) ->
      exists y, Rel g q n y /\ oelt (p :: qs) (S n) pos = Some (xadd (Fin (q n)) y).
Proof.
  intros P np T Rel HE p gs Wp Hgs.
  assert (E0 : exists s0, init T p = Ok s0) by (destruct (HE p [] Wp (Forall_nil _)) as (outs & (s0 & s1 & E & _) & _); eauto). destruct E0 as (s0 & Ei). exists s0.
  assert (Hok : forall gs qs, Forall (like p) gs -> Forall (like p) qs -> hist_ok np p (combine gs (map Some qs))).
  { clear. intros gs qs Hg. revert qs. induction Hg as [|g gs Hg Hgs IH]; intros qs Hq; [constructor|]. destruct Hq as [|q qs Hq Hqs]; [constructor|]. cbn. constructor; [split; [exact Hg|intros _; exists q; auto]|]. apply IH, Hqs. }
  assert (Hpp : like p p) by (split; [reflexivity|exact Wp]).
  assert (G : exists qs outs sf, train_loop T s0 p gs = Ok (qs, sf) /\ run T s0 (combine gs (map Some (p :: qs))) = Ok (outs, sf) /\ length qs = length gs /\ Forall (like p) qs /\
     forall n q u, nth_error (p :: qs) n = Some q -> nth_error outs n = Some u -> like p u /\ exists q', nth_error qs n = Some q' /\ apply_updates q u = Ok q').
  { induction gs as [|g gs IH] using rev_ind.
    - exists [], [], s0. split; [reflexivity|]. split; [reflexivity|]. split; [reflexivity|]. split; [constructor|]. intros [|n] q u _ E; discriminate.
    - apply Forall_app in Hgs as (Hgs & Hg). apply Forall_inv in Hg. destruct (IH Hgs) as (qs & outs & sf & El & Er & Hl & Hq & Hn).
      assert (Hlast : like p (last qs p)). { pose proof (nth_error_last qs p) as E. apply nth_error_In in E. destruct E as [E|E]; [rewrite <- E; exact Hpp|]. rewrite Forall_forall in Hq. now apply Hq. }
      destruct (HE p (combine gs (map Some (p :: qs)) ++ [(g, Some (last qs p))]) Wp) as (outs' & (s0' & s1' & Ei' & Er') & Hlo & Hlk & _).
      { apply Forall_app. split; [apply Hok; [exact Hgs|now constructor]|]. constructor; [|constructor]. split; [exact Hg|intros _; eexists; split; [reflexivity|exact Hlast]]. }
      rewrite Ei in Ei'. injection Ei' as <-. rewrite run_app, Er in Er'. cbn [rbind run] in Er'.
      destruct (update T g sf (Some (last qs p))) as [[u s2]|] eqn:Eu; [|discriminate]. cbn [rbind] in Er'. injection Er' as <- <-.
      assert (Hu : like p u) by (rewrite Forall_forall in Hlk; apply Hlk, in_or_app; right; now left).
      destruct (@apply_updates_spec (XROps P) (last qs p) u) as (q' & Eq & (Hqa & Hqw) & _).
      { destruct Hlast as (H1 & _), Hu as (H2 & _). unfold avals in H1, H2. pose proof (f_equal (tmap snd) (eq_trans H1 (eq_sym H2))) as Hs. rewrite !tmap_tmap in Hs. exact Hs. }
      { apply Hlast. } { apply Hu. }
      assert (Hlq' : like p q') by (split; [destruct Hlast; congruence|exact Hqw]).
      exists (qs ++ [q']), (outs ++ [u]), s2. split; [|split; [|split; [|split]]].
      + rewrite train_loop_app, El. cbn [rbind train_loop]. rewrite Eu. cbn [rbind]. rewrite Eq. reflexivity.
      + change (map Some (p :: qs ++ [q'])) with (map Some ((p :: qs) ++ [q'])). rewrite map_app. cbn [map]. rewrite (combine_snoc _ _ _ _ (Some p)) by (cbn; apply f_equal; rewrite map_length; exact Hl).
        change (Some p :: map Some qs) with (map Some (p :: qs)). rewrite last_map', last_cons', run_app, Er. cbn [rbind run]. rewrite Eu. reflexivity.
      + rewrite !app_length, Hl. reflexivity.
      + apply Forall_app. split; [exact Hq|]. constructor; [exact Hlq'|constructor].
      + assert (Hlo2 : length outs = length gs). { apply run_length in Er. rewrite Er, combine_length, map_length. cbn [length]. nx. rewrite Hl. apply Nat.min_l. auto. }
        intros n q v Eqn Ev. nx. destruct (Nat.lt_ge_cases n (length gs)) as [Hlt|Hge].
        * rewrite nth_error_app1 in Ev by lia. change (p :: qs ++ [q']) with ((p :: qs) ++ [q']) in Eqn. rewrite nth_error_app1 in Eqn by (cbn; lia). destruct (Hn n q v Eqn Ev) as (H1 & q2 & H2 & H3). split; [exact H1|]. exists q2. split; [|exact H3]. rewrite nth_error_app1 by lia. exact H2.
        * assert (n = length gs). { assert (n < length (outs ++ [u]))%nat by (apply nth_error_Some; congruence). rewrite app_length in *. cbn in *. lia. } subst n.
          rewrite nth_error_app2, Hlo2, Nat.sub_diag in Ev by lia. injection Ev as <-. change (p :: qs ++ [q']) with ((p :: qs) ++ [q']) in Eqn. rewrite nth_error_app1 in Eqn by (cbn; lia). rewrite <- Hl, nth_error_last in Eqn. injection Eqn as <-.
          split; [exact Hu|]. exists q'. split; [|exact Eq]. rewrite nth_error_app2, Hl, Nat.sub_diag by lia. reflexivity. }
  destruct G as (qs & outs & sf & El & Er & Hl & Hq & Hn). exists qs, sf. split; [exact Ei|]. split; [exact El|]. split; [exact Hl|]. split; [exact Hq|].
  intros pos n g q Hlt Hg Hqe. nx. assert (Hfl : Forall (like p) (p :: qs)) by now constructor.
  assert (Hlc : length (combine gs (map Some (p :: qs))) = length gs) by (rewrite combine_length, map_length; cbn; lia).
  assert (Hc : forall i, (i < length gs)%nat -> exists gi qi, nth_error gs i = Some gi /\ nth_error (p :: qs) i = Some qi /\ nth_error (combine gs (map Some (p :: qs))) i = Some (gi, Some qi)).
  { intros i Hi; destruct (nth_error gs i) as [gi|] eqn:E1; [|apply nth_error_None in E1; lia]. destruct (nth_error (p :: qs) i) as [qi|] eqn:E2; [|apply nth_error_None in E2; cbn in E2; lia]. exists gi, qi. split; [reflexivity|]. split; [reflexivity|].
    assert (G2 : forall (l m : list (tree (gt XR))) k a b, nth_error l k = Some a -> nth_error m k = Some b -> nth_error (combine l (map Some m)) k = Some (a, Some b)) by (clear; induction l as [|x l IH]; intros [|y m] [|k] a b H1 H2; try discriminate; cbn in *; [congruence|apply IH; auto]). apply G2; auto. }
  destruct (HE p (combine gs (map Some (p :: qs))) Wp (Hok gs (p :: qs) Hgs Hfl)) as (outs' & (s0' & s1' & Ei' & Er') & Hlo & Hlk & He).
  rewrite Ei in Ei'. injection Ei' as <-. rewrite Er in Er'. injection Er' as <- <-.
  destruct (He n pos g q) as (y & Ey & Hy).
  - eapply Nat.lt_le_trans; [exact Hlt|]. apply Nat.eq_le_incl. symmetry. exact Hlc.
  - intros i Hi. destruct (Hc i ltac:(lia)) as (gi & qi & E1 & E2 & E3). rewrite <- (Hg i Hi). unfold helt, oelt. nx. rewrite E3, E1. reflexivity.
  - intros _ i Hi. destruct (Hc i ltac:(lia)) as (gi & qi & E1 & E2 & E3). rewrite <- (Hqe i Hi). unfold hpelt, oelt. nx. rewrite E3, E2. reflexivity.
  - exists y. split; [exact Hy|]. destruct (Hc n Hlt) as (gn & qn & E1 & E2 & _). unfold oelt in Ey. nx. destruct (nth_error outs n) as [u|] eqn:Eu; [|discriminate].
    destruct (Hn n qn u E2 Eu) as ((Hua & Huw) & q' & E3 & E4). unfold oelt. cbn [nth_error]. nx. rewrite E3.
    assert (Hqn : like p qn) by (rewrite Forall_forall in Hfl; apply Hfl; eapply nth_error_In; eauto).
    destruct (@apply_updates_spec (XROps P) qn u) as (q2 & Eq & _ & Hel).
    { destruct Hqn as (H1 & _). unfold avals in H1, Hua. pose proof (f_equal (tmap snd) (eq_trans H1 (eq_sym Hua))) as Hs. rewrite !tmap_tmap in Hs. exact Hs. }
    { apply Hqn. } { exact Huw. }
    pose proof (Ok_inj _ _ (eq_trans (eq_sym E4) Eq)) as Q. rewrite Q.
    specialize (Hqe n (le_n _)). unfold oelt in Hqe. nx. rewrite E2 in Hqe. etransitivity; [exact (Hel pos (Fin (q n)) y Hqe Ey)|]. cbn beta zeta. rewrite !conv_x. reflexivity.
Qed.
(*@ C59_parameters : hence for the loop of update and apply_updates, from any parameters and any gradients shaped like them: nothing raises, and after n steps every parameter with finite history equals its initial value minus the sum of learning rate times trace. *)
Lemma sgd_params : forall `{P : Platform} (L : lrate) (lr : Z -> R) (m : option R) (nest : bool) (p : tree tensor) (gs : list (tree tensor)), (forall c, rate L c = Fin (lr c)) -> trwf p -> Forall (like p) gs ->
  exists T s0 qs sf, sgd L (option_map Fin m) nest = Ok T /\ init T p = Ok s0 /\ train_loop T s0 p gs = Ok (qs, sf) /\ length qs = length gs /\ Forall (like p) qs /\
    forall pos n (g : nat -> R) (x : R), (n < length gs)%nat -> elt p pos = Some (Fin x) -> (forall i, (i <= n)%nat -> oelt gs i pos = Some (Fin (g i))) ->
      oelt qs n pos = Some (Fin (x - sum_f_R0 (fun i => lr (count_at i) * momentum_of m nest g i) n)).
Proof.
  intros P L lr m nest p gs HL Wp Hgs. destruct (sgd_emits L lr m nest HL) as (T & ET & HE). destruct (emits_loop true T _ HE p gs Wp Hgs) as (s0 & qs & sf & Ei & El & Hl & Hq & Hn).
  exists T, s0, qs, sf. repeat split; auto. intros pos n g x Hlt Hx Hg.
  set (q := fun i => match i with O => x | S k => x - sum_f_R0 (fun i => lr (count_at i) * momentum_of m nest g i) k end).
  assert (G : forall k, (k <= S n)%nat -> oelt (p :: qs) k pos = Some (Fin (q k))).
  { intros k. induction k as [k IH] using lt_wf_ind. intros Hk. destruct k as [|k]; [exact Hx|]. destruct (Hn pos k g q) as (y & Hy & Ey); [lia|intros; apply Hg; lia|intros i Hi; apply IH; lia|]. rewrite Ey, Hy, xadd_fin. do 2 f_equal.
    destruct k; cbn [q sum_f_R0]; lra. }
  exact (G (S n) (le_n _)).
Qed.
(*@ex C59_example *)
Lemma sgd_example : forall `{P : Platform}, exists T outs, sgd (LSched (fun c => Fin (IZR c + 1))) (Some (Fin (1/2))) false = Ok T /\ trains T ex_p ex_H outs /\ oelt outs 2 (0%nat, 1%nat) = Some (Fin (- (51 / 4))).
Proof.
  intros P. destruct (@sgd_emits P (@LSched (XROps P) (fun c => Fin (IZR c + 1))) (fun c => IZR c + 1) (Some (1/2)) false (fun c => eq_refl)) as (T & E & HE).
  destruct (HE ex_p ex_H ex_p_wf (ex_H_ok true)) as (outs & Ht & _ & _ & He). exists T, outs. split; [exact E|]. split; [exact Ht|].
  destruct (He 2%nat (0%nat, 1%nat) (fun i => INR (S i)) (fun _ => 0)) as (y & -> & ->); [cbn; lia|exact (fun i => ex_H_elt i)|discriminate|]. do 2 f_equal. unfold count_at. rewrite Z.min_l by lia. cbn. lra.
Qed.

(** ** The adaptive aliases *)
(** Each emitted tree, multiplied by minus the learning rate of its call. *)
Definition times_rate `{O : Ops} (L : lrate) (mid : list (tree tensor)) : list (tree tensor) :=
  map (fun nx => emapt (fun d x => fmul d (fcast d (fneg (rate L (count_at (fst nx))))) x) (snd nx)) (combine (seq 0 (length mid)) mid).
Lemma feed_id {A B} (H : list (A * B)) : feed (map fst H) H = H.
Proof. unfold feed. induction H as [|[a b] H IH]; cbn; [reflexivity|]. now rewrite IH. Qed.
Lemma feed_feed {A B} (m1 m2 : list A) (H : list (A * B)) : length m1 = length H -> feed m2 (feed m1 H) = feed m2 H.
Proof. intros E. unfold feed at 1 3. rewrite map_snd_feed by exact E. reflexivity. Qed.
Section Decomp.
  Context `{O : Ops}.
  Lemma cnt_at n : cnt n = count_at n.
  Proof. reflexivity. Qed.
  Lemma lr_trains L p H outs : trains (scale_by_learning_rate L) p H outs <-> outs = times_rate L (map fst H).
  Proof.
    assert (G : forall k H, exists s1, run (scale_by_learning_rate L) (match L with LConst _ => SNode NEmpty [] | LSched _ => SNode NSchedule [SInt I32 (cnt k)] end) H =
      Ok (map (fun nx => emapt (fun d x => fmul d (fcast d (fneg (rate L (count_at (fst nx))))) x) (snd nx)) (combine (seq k (length (map fst H))) (map fst H)), s1)).
    { intros k h. revert k. induction h as [|[u par] h IH]; intros k; [eexists; reflexivity|]. destruct (IH (S k)) as (s1 & E). exists s1. destruct L as [x|f]; cbn [run scale_by_learning_rate scale stateless update scale_by_schedule rbind] in *.
      - rewrite E. reflexivity.
      - rewrite cnt_S. cbn [rbind]. rewrite E. rewrite (cnt_at k). reflexivity. }
    unfold times_rate. destruct (G 0%nat H) as (s1 & E). split.
    - intros (s0 & s & Ei & Er). destruct L; cbn in Ei; injection Ei as <-; change (SInt I32 0) with (SInt I32 (cnt 0)) in Er || idtac; rewrite E in Er; now injection Er.
    - intros ->. eexists _, s1. split; [|exact E]. destruct L; reflexivity.
  Qed.
  Lemma chain_snoc Ts T p H outs : trains (chain_gt (Ts ++ [T])) p H outs <-> exists mid, trains (chain_gt Ts) p H mid /\ trains T p (feed mid H) outs.
  Proof.
    revert H outs. induction Ts as [|T0 Ts IH]; intros H outs.
    - cbn [app]. rewrite chain_one_gt. split.
      + intros E. exists (map fst H). split; [now apply empty_chain_trains|]. rewrite feed_id. exact E.
      + intros (mid & E1 & E2). apply empty_chain_trains in E1. subst mid. rewrite feed_id in E2. exact E2.
    - cbn [app]. rewrite chain_trains. split.
      + intros (m1 & E1 & E2). apply IH in E2 as (m2 & E2 & E3). exists m2. split; [apply chain_trains; eauto|]. rewrite feed_feed in E3; [exact E3|eapply trains_length; eauto].
      + intros (m2 & E1 & E2). apply chain_trains in E1 as (m1 & E1 & E3). exists m1. split; [exact E1|]. apply IH. exists m2. split; [exact E3|]. rewrite feed_feed; [exact E2|eapply trains_length; eauto].
  Qed.
  Lemma then_lr Ts L p H outs : trains (chain_gt (Ts ++ [scale_by_learning_rate L])) p H outs <-> exists mid, trains (chain_gt Ts) p H mid /\ outs = times_rate L mid.
  Proof.
    rewrite chain_snoc. split; intros (mid & E1 & E2); exists mid; (split; [exact E1|]).
    - apply lr_trains in E2. rewrite map_fst_feed in E2 by (eapply trains_length; eauto). exact E2.
    - apply lr_trains. rewrite map_fst_feed by (eapply trains_length; eauto). exact E2.
  Qed.
End Decomp.


(*@ C60_decomposition : in any arithmetic, for every hyper-parameter, learning rate (fixed or schedule) and history: an alias emits exactly what its scaling rule (followed by decoupled weight decay, and by the trust ratio for lamb) emits, every element of the n-th tree multiplied by minus the learning rate at count n; rmsprop then applies the optional momentum; sm3 has a fixed learning rate. *)
Lemma alias_decomposition : forall `{O : Ops} (L : lrate) (b1 b2 eps er th wd lr : F) (p : tree tensor) (H : list (tree tensor * option (tree tensor))) (outs : list (tree tensor)),
  let runs T := exists G, T = Ok G /\ trains G p H outs in
  (runs (adam L b1 b2 eps er) <-> exists mid, trains (scale_by_adam b1 b2 eps er) p H mid /\ outs = times_rate L mid) /\
  (runs (adamw L b1 b2 eps er wd) <-> exists m1 m2, trains (scale_by_adam b1 b2 eps er) p H m1 /\ trains (add_decayed_weights wd) p (feed m1 H) m2 /\ outs = times_rate L m2) /\
  (runs (adabelief L b1 b2 eps) <-> exists mid, trains (scale_by_belief b1 b2 eps (flit (1 # 10000000000000000))) p H mid /\ outs = times_rate L mid) /\
  (runs (adagrad L b1 eps) <-> exists mid, trains (scale_by_rss b1 eps) p H mid /\ outs = times_rate L mid) /\
  (runs (radam L b1 b2 eps er th) <-> feqb (py1m b2) fzero = false /\ exists mid, trains (scale_by_radam b1 b2 eps er th) p H mid /\ outs = times_rate L mid) /\
  (runs (yogi L b1 b2 eps) <-> exists mid, trains (scale_by_yogi b1 b2 eps fzero (flit (1 # 1000000))) p H mid /\ outs = times_rate L mid) /\
  (runs (sm3 lr b1) <-> exists mid, trains (scale_by_sm3 b1 fone (flit (1 # 100000000))) p H mid /\ outs = times_rate (LConst lr) mid) /\
  (runs (lamb L b1 b2 eps er wd) <-> exists m1 m2 m3, trains (scale_by_adam b1 b2 eps er) p H m1 /\ trains (add_decayed_weights wd) p (feed m1 H) m2 /\ trains (scale_by_trust_ratio fzero) p (feed m2 H) m3 /\ outs = times_rate L m3) /\
  (forall centered m nest, runs (rmsprop L b1 eps b2 centered m nest) <->
     exists mid, trains (if centered then scale_by_stddev b1 eps b2 else scale_by_rms b1 eps b2) p H mid /\ trains (opt_trace m nest) p (feed (times_rate L mid) H) outs).
Proof.
  intros O L b1 b2 eps er th wd lr p H outs runs.
  assert (Hr : forall G, runs (Ok G) <-> trains G p H outs). { intros G. split; [intros (G' & E & Ht); injection E as <-; exact Ht|intros Ht; exists G; split; [reflexivity|exact Ht]]. }
  assert (H1 : forall T L', runs (chain [T; scale_by_learning_rate L']) <-> exists mid, trains T p H mid /\ outs = times_rate L' mid).
  { intros T L'. unfold chain. rewrite Hr. etransitivity; [exact (then_lr [T] L' p H outs)|]. split; intros (mid & E1 & E2); exists mid; (split; [|exact E2]); apply chain_one_gt; exact E1. }
  assert (H2 : forall T h o, trains (chain_gt [T]) p h o <-> trains T p h o) by (intros; apply chain_one_gt).
  split; [apply H1|]. split; [|split; [apply H1|split; [apply H1|split; [|split; [apply H1|split; [apply (H1 _ (LConst lr))|split]]]]]].
  2:{ unfold radam. destruct (feqb (py1m b2) fzero); [split; [intros (G & E & _); discriminate|intros (E & _); discriminate]|]. rewrite H1. split; [intros E; split; [reflexivity|exact E]|intros (_ & E); exact E]. }
  - unfold adamw, chain. rewrite Hr. etransitivity; [exact (then_lr [_; _] L p H outs)|]. split.
    + intros (m2 & E & ->). apply chain_trains in E as (m1 & E1 & E2). apply (proj1 (H2 _ _ _)) in E2. exists m1, m2. split; [exact E1|]. split; [exact E2|reflexivity].
    + intros (m1 & m2 & E1 & E2 & ->). exists m2. split; [|reflexivity]. apply chain_trains. exists m1. split; [exact E1|]. apply H2. exact E2.
  - unfold lamb, chain. rewrite Hr. etransitivity; [exact (then_lr [_; _; _] L p H outs)|]. split.
    + intros (m3 & E & ->). apply chain_trains in E as (m1 & E1 & E). apply chain_trains in E as (m2 & E2 & E). apply (proj1 (H2 _ _ _)) in E. rewrite feed_feed in E by (eapply trains_length; eauto). exists m1, m2, m3. split; [exact E1|]. split; [exact E2|]. split; [exact E|reflexivity].
    + intros (m1 & m2 & m3 & E1 & E2 & E3 & ->). exists m3. split; [|reflexivity]. apply chain_trains. exists m1. split; [exact E1|]. apply chain_trains. exists m2. split; [exact E2|]. apply H2. rewrite feed_feed by (eapply trains_length; eauto). exact E3.
  - intros centered m nest.
    assert (G : forall T, runs (chain [T; scale_by_learning_rate L; opt_trace m nest]) <-> exists mid, trains T p H mid /\ trains (opt_trace m nest) p (feed (times_rate L mid) H) outs).
    { intros T. unfold chain. rewrite Hr. etransitivity; [exact (chain_snoc [T; scale_by_learning_rate L] _ p H outs)|]. split.
      - intros (m2 & E & Et). apply (then_lr [T]) in E as (m1 & E1 & ->). apply (proj1 (H2 _ _ _)) in E1. exists m1. split; [exact E1|exact Et].
      - intros (m1 & E1 & Et). exists (times_rate L m1). split; [|exact Et]. apply (then_lr [T]). exists m1. split; [apply H2; exact E1|reflexivity]. }
    destruct centered; apply G.
Qed.

(*@ C63_radam_b2 : building radam raises ZeroDivisionError exactly when 1 - b2, computed on Python floats, is zero; in exact arithmetic, exactly when b2 is 1. *)
Lemma radam_b2 : forall `{P : Platform} (L : lrate) (b1 b2 eps er th : XR), (b2 = Fin 1 <-> radam L b1 b2 eps er th = Err EZeroDiv) /\ (b2 <> Fin 1 -> exists T, radam L b1 b2 eps er th = Ok T).
Proof.
  intros P L b1 b2 eps er th. unfold radam. rewrite f0. destruct b2 as [r| | |]; try (split; [split; discriminate|intros _; eexists; reflexivity]).
  rewrite xpy1m. cbn [feqb XROps]. destruct (xeqb (Fin (1 - r)) (Fin 0)) eqn:E.
  - apply xeqb_fin in E. assert (r = 1) by lra. subst r. split; [split; reflexivity|]. intros H. exfalso. now apply H.
  - apply xeqb_fin_f in E. split; [split; [intros [= ->]; lra|discriminate]|]. intros _. eexists; reflexivity.
Qed.

(** The scaling rules as plain functions of the gradient history of one element. *)
Definition adam_dir (b1 b2 eps er : R) (g : nat -> R) (n : nat) : R :=
  let t := satcount (S n) in
  let mhat := (1 - b1) * sum_f_R0 (fun i => b1 ^ (n - i) * g i) n / (1 - b1 ^ t) in
  let vhat := (1 - b2) * sum_f_R0 (fun i => b2 ^ (n - i) * (g i * g i)) n / (1 - b2 ^ t) in
  mhat / (sqrt (vhat + er) + eps).
(** x_0 = v0, x_(i+1) = b x_i + (1-b) f_i *)
Fixpoint ema_seq (b v0 : R) (f : nat -> R) (n : nat) : R := match n with O => v0 | S i => b * ema_seq b v0 f i + (1 - b) * f i end.
Definition belief_dir (b1 b2 eps er : R) (g : nat -> R) (n : nat) : R :=
  let t := satcount (S n) in
  (ema_seq b1 0 g (S n) / (1 - b1 ^ t)) / (sqrt (ema_seq b2 0 (fun i => (g i - ema_seq b1 0 g i) ^ 2) (S n) / (1 - b2 ^ t) + er) + eps).
Definition sign_of (x : R) : R := if Rlt_dec 0 x then 1 else if Rlt_dec x 0 then -1 else 0.
Fixpoint yogi_v (b2 v0 : R) (g : nat -> R) (n : nat) : R :=
  match n with O => v0 | S i => let v := yogi_v b2 v0 g i in b2 * v + (1 - b2) * (sign_of (v - g i ^ 2) * g i ^ 2) ^ 2 end.
Definition yogi_dir (b1 b2 eps er v0 : R) (g : nat -> R) (n : nat) : R :=
  let t := satcount (S n) in
  (ema_seq b1 v0 g (S n) / (1 - b1 ^ t)) / (sqrt (yogi_v b2 v0 g (S n) / (1 - b2 ^ t) + er) + eps).
Definition radam_dir (b1 b2 eps er th : R) (g : nat -> R) (n : nat) : R :=
  let t := S n in
  let mhat := (1 - b1) * sum_f_R0 (fun i => b1 ^ (n - i) * g i) n / (1 - b1 ^ t) in
  let vhat := (1 - b2) * sum_f_R0 (fun i => b2 ^ (n - i) * (g i * g i)) n / (1 - b2 ^ t) in
  let rho_inf := 2 / (1 - b2) - 1 in
  let rho := rho_inf - 2 * INR t * b2 ^ t / (1 - b2 ^ t) in
  let r := sqrt (((rho - 4) * (rho - 2) * rho_inf) / ((rho_inf - 4) * (rho_inf - 2) * rho)) in
  if Rlt_dec rho th then mhat else r * mhat / (sqrt (vhat + er) + eps).
Definition rss_dir (a0 eps : R) (g : nat -> R) (n : nat) : R := g n / sqrt (a0 + sum_f_R0 (fun i => g i * g i) n + eps).
Definition rms_dir (b eps v0 : R) (centered : bool) (g : nat -> R) (n : nat) : R :=
  let mu := if centered then (1 - b) * sum_f_R0 (fun i => b ^ (n - i) * g i) n else 0 in
  let nu := b ^ (S n) * v0 + (1 - b) * sum_f_R0 (fun i => b ^ (n - i) * (g i * g i)) n in
  g n / sqrt (nu - mu * mu + eps).

Section Dirs.
  Context {P : Platform}.
  Notation xr := (XROps P).
  Lemma adam_dir_emits b1 b2 eps er : 0 <= b1 < 1 -> 0 <= b2 < 1 -> 0 < eps -> 0 <= er ->
    @emits P true (@scale_by_adam xr (Fin b1) (Fin b2) (Fin eps) (Fin er)) (fun g _ n y => y = Fin (adam_dir b1 b2 eps er g n)).
  Proof. intros. eapply emits_impl; [|apply adam_closed_form; assumption]. intros g q n y (_ & ->). reflexivity. Qed.
  Lemma ema_seq_unique b v0 f x : x 0%nat = v0 -> (forall i, x (S i) = b * x i + (1 - b) * f i) -> forall n, x n = ema_seq b v0 f n.
  Proof. intros H0 HS n. induction n as [|n IH]; [exact H0|]. cbn. now rewrite HS, IH. Qed.
  Lemma ema_seq_ext b v0 f f' n : (forall i, f i = f' i) -> ema_seq b v0 f n = ema_seq b v0 f' n.
  Proof. intros E. induction n as [|n IH]; cbn; [reflexivity|]. now rewrite IH, E. Qed.
  Lemma belief_dir_emits b1 b2 eps er : 0 <= b1 < 1 -> 0 <= b2 < 1 -> 0 < eps -> 0 <= er ->
    @emits P true (@scale_by_belief xr (Fin b1) (Fin b2) (Fin eps) (Fin er)) (fun g _ n y => y = Fin (belief_dir b1 b2 eps er g n)).
  Proof.
    intros. eapply emits_impl; [|apply belief_closed_form; assumption]. cbn zeta. intros g q n y (mu & nu & M0 & MS & N0 & NS & _ & ->). f_equal. unfold belief_dir. cbn zeta.
    rewrite <- (ema_seq_unique b1 0 g mu M0 MS (S n)). rewrite (ema_seq_unique b2 0 _ nu N0 NS (S n)).
    rewrite (ema_seq_ext b2 0 (fun i => (g i - ema_seq b1 0 g i) ^ 2) (fun i => (g i - mu i) ^ 2)); [reflexivity|]. intros i. now rewrite (ema_seq_unique b1 0 g mu M0 MS i).
  Qed.
  Lemma yogi_dir_emits b1 b2 eps er v0 : 0 <= b1 < 1 -> 0 <= b2 < 1 -> 0 < eps -> 0 <= er -> 0 <= v0 ->
    @emits P true (@scale_by_yogi xr (Fin b1) (Fin b2) (Fin eps) (Fin er) (Fin v0)) (fun g _ n y => y = Fin (yogi_dir b1 b2 eps er v0 g n)).
  Proof.
    intros. eapply emits_impl; [|apply yogi_closed_form; assumption]. cbn zeta. intros g q n y (mu & v & M0 & MS & V0 & VS & _ & ->). f_equal. unfold yogi_dir. cbn zeta.
    rewrite <- (ema_seq_unique b1 v0 g mu M0 MS (S n)).
    assert (G : forall k, v k = yogi_v b2 v0 g k).
    { intros k. induction k as [|k IH]; [exact V0|]. destruct (VS k) as (s & (S1 & S2 & S3) & ->). cbn [yogi_v]. rewrite <- IH.
      assert (E : s = sign_of (v k - g k ^ 2)). { unfold sign_of. destruct (Rlt_dec 0 _); [auto|]. destruct (Rlt_dec _ 0); [auto|]. apply S3. lra. } rewrite <- E. ring. }
    rewrite (G (S n)). reflexivity.
  Qed.
  Lemma radam_dir_emits b1 b2 eps er th : 0 <= b1 < 1 -> 0 <= b2 < 1 -> 0 < eps -> 0 <= er -> 4 < th ->
    @emits P true (@scale_by_radam xr (Fin b1) (Fin b2) (Fin eps) (Fin er) (Fin th)) (fun g _ n y => (Z.of_nat (S n) < 2 ^ 30)%Z -> y = Fin (radam_dir b1 b2 eps er th g n)).
  Proof.
    intros. eapply emits_impl; [|apply radam_closed_form; assumption]. cbn zeta. intros g q n y HH Hn. destruct (HH Hn) as (H5 & H6). unfold radam_dir. cbn zeta. destruct (Rlt_dec _ th); [apply H5; assumption|]. apply H6. lra.
  Qed.
  Lemma sum_sq_nonneg g n : g n * g n <= sum_f_R0 (fun i => g i * g i) n.
  Proof. assert (G : forall k, 0 <= sum_f_R0 (fun i => g i * g i) k) by (intros k; apply cond_pos_sum; intros; apply Rle_0_sqr). destruct n; cbn; [lra|]. specialize (G n). lra. Qed.
  Lemma rss_dir_emits a0 eps : 0 <= a0 -> 0 <= eps -> @emits P true (@scale_by_rss xr (Fin a0) (Fin eps)) (fun g _ n y => y = Fin (rss_dir a0 eps g n)).
  Proof.
    intros Ha He. eapply emits_impl; [|apply rss_closed_form; assumption]. cbn zeta. intros g q n y (H1 & H2 & _). unfold rss_dir. pose proof (sum_sq_nonneg g n). pose proof (Rle_0_sqr (g n)) as Hs. unfold Rsqr in Hs.
    destruct (Rlt_dec 0 (a0 + sum_f_R0 (fun i => g i * g i) n)); [apply H1; assumption|]. rewrite H2 by lra. assert (g n = 0) by nra. rewrite H0. f_equal. unfold Rdiv. ring.
  Qed.
  Lemma rms_dir_emits b eps v0 (c : bool) : 0 <= b < 1 -> 0 < eps -> 0 <= v0 -> @emits P true (if c then @scale_by_stddev xr (Fin b) (Fin eps) (Fin v0) else @scale_by_rms xr (Fin b) (Fin eps) (Fin v0)) (fun g _ n y => y = Fin (rms_dir b eps v0 c g n)).
  Proof.
    intros Hb He Hv. destruct c.
    - eapply emits_impl; [|apply stddev_closed_form; [lra|assumption..]]. cbn zeta. intros g q n y (_ & ->). reflexivity.
    - eapply emits_impl; [|apply rms_closed_form; assumption]. cbn zeta. intros g q n y (_ & -> & _). unfold rms_dir. cbn zeta. rewrite Rmult_0_l, Rminus_0_r. reflexivity.
  Qed.
  Lemma wd_emits wd : @emits P false (@add_decayed_weights xr (Fin wd)) (fun g q n y => y = Fin (g n + wd * q n)).
  Proof. eapply refines_emits; [apply refines_wd|]. intros. cbn. reflexivity. Qed.
  (** A rule given by a function of the gradient history, then -lr. *)
  Lemma scaled_dir T (f : (nat -> R) -> nat -> R) (L : @lrate xr) lr : (forall c, rate L c = Fin (lr c)) -> @emits P true T (fun g _ n y => y = Fin (f g n)) ->
    @emits P true (chain_gt [T; scale_by_learning_rate L]) (fun g _ n y => y = Fin (- lr (count_at n) * f g n)).
  Proof. intros HL E. eapply emits_impl; [|apply (emits_scaled true _ _ L lr HL E)]. cbn beta. intros g q n y Hy. apply (Hy (f g)). intros i _ z ->. reflexivity. Qed.
End Dirs.

(*@ C60_closed_forms : in exact arithmetic, for every parameter tree and history, every fixed or scheduled learning rate and hyper-parameters in the usual ranges: nothing raises, updates keep the parameters' structure, shapes and dtypes, and the n-th update of an element is minus the learning rate at count n times the direction of the rule -- a plain function of that element's gradients, defined above -- for adam, adabelief, adagrad, radam (below 2^30 steps) and yogi. *)
Lemma alias_closed_forms : forall `{P : Platform} (L : lrate) (lr : Z -> R) (b1 b2 eps er th a0 : R), (forall c, rate L c = Fin (lr c)) -> 0 <= b1 < 1 -> 0 <= b2 < 1 -> 0 < eps -> 0 <= er -> 4 < th -> 0 <= a0 ->
  (exists T, adam L (Fin b1) (Fin b2) (Fin eps) (Fin er) = Ok T /\ emits true T (fun g _ n y => y = Fin (- lr (count_at n) * adam_dir b1 b2 eps er g n))) /\
  (exists T, adabelief L (Fin b1) (Fin b2) (Fin eps) = Ok T /\ emits true T (fun g _ n y => y = Fin (- lr (count_at n) * belief_dir b1 b2 eps (/ 10 ^ 16) g n))) /\
  (exists T, adagrad L (Fin a0) (Fin eps) = Ok T /\ emits true T (fun g _ n y => y = Fin (- lr (count_at n) * rss_dir a0 eps g n))) /\
  (exists T, radam L (Fin b1) (Fin b2) (Fin eps) (Fin er) (Fin th) = Ok T /\ emits true T (fun g _ n y => (Z.of_nat (S n) < 2 ^ 30)%Z -> y = Fin (- lr (count_at n) * radam_dir b1 b2 eps er th g n))) /\
  (exists T, yogi L (Fin b1) (Fin b2) (Fin eps) = Ok T /\ emits true T (fun g _ n y => y = Fin (- lr (count_at n) * yogi_dir b1 b2 eps 0 (/ 10 ^ 6) g n))).
Proof.
  intros P L lr b1 b2 eps er th a0 HL H1 H2 He Hr Ht Ha.
  split; [eexists; split; [reflexivity|eapply scaled_dir; [exact HL|]; apply adam_dir_emits; assumption]|].
  split; [eexists; split; [reflexivity|apply (scaled_dir _ (belief_dir b1 b2 eps (/ 10 ^ 16)) L lr HL)]|].
  { assert (E : @flit (XROps P) (1 # 10000000000000000) = Fin (/ 10 ^ 16)) by (cbn [flit XROps]; f_equal; unfold Q2R; cbn; lra). rewrite E. apply belief_dir_emits; try assumption; lra. }
  split; [eexists; split; [reflexivity|eapply scaled_dir; [exact HL|]; apply rss_dir_emits; lra]|].
  split.
  { eexists; split. { unfold radam. rewrite xpy1m, f0. cbn [feqb XROps]. rewrite (proj2 (xeqb_fin_f _ _)) by lra. reflexivity. } eapply emits_impl; [|exact (emits_scaled true _ _ L lr HL (radam_dir_emits b1 b2 eps er th H1 H2 He Hr Ht))]. cbn beta. intros g q n y Hy Hn. apply (Hy (radam_dir b1 b2 eps er th g)). intros i Hi z Hz. apply Hz. lia. }
  eexists; split; [reflexivity|apply (scaled_dir _ (yogi_dir b1 b2 eps 0 (/ 10 ^ 6)) L lr HL)].
  assert (E : @flit (XROps P) (1 # 1000000) = Fin (/ 10 ^ 6)) by (cbn [flit XROps]; f_equal; unfold Q2R; cbn; lra). rewrite E, f0. apply yogi_dir_emits; try assumption; lra.
Qed.
(*@ C60_adamw : adamw's n-th update of an element with parameter history q is - lr * (adam direction) - lr * weight_decay * q_n: the decay term is not rescaled by the gradients' statistics. *)
Lemma adamw_closed_form : forall `{P : Platform} (L : lrate) (lr : Z -> R) (b1 b2 eps er wd : R), (forall c, rate L c = Fin (lr c)) -> 0 <= b1 < 1 -> 0 <= b2 < 1 -> 0 < eps -> 0 <= er ->
  exists T, adamw L (Fin b1) (Fin b2) (Fin eps) (Fin er) (Fin wd) = Ok T /\ emits false T (fun g q n y => y = Fin (- lr (count_at n) * adam_dir b1 b2 eps er g n - lr (count_at n) * wd * q n)).
Proof.
  intros P L lr b1 b2 eps er wd HL H1 H2 He Hr. eexists. split; [reflexivity|].
  eapply emits_impl; [|apply (emits_cons false _ _ _ _ (emits_weaken _ _ (adam_dir_emits b1 b2 eps er H1 H2 He Hr)) (emits_scaled false _ _ L lr HL (wd_emits wd)))].
  cbn beta. intros g q n y Hy. specialize (Hy (adam_dir b1 b2 eps er g) ltac:(intros i _ z ->; reflexivity) (fun i => adam_dir b1 b2 eps er g i + wd * q i) ltac:(intros i _ z ->; reflexivity)). rewrite Hy. f_equal. ring.
Qed.
(*@ C60_rmsprop : rmsprop's updates are the optional momentum trace of - lr * g / sqrt(nu - mu^2 + eps) (mu = 0 unless centered): the learning rate is inside the momentum. *)
Lemma rmsprop_closed_form : forall `{P : Platform} (L : lrate) (lr : Z -> R) (b eps v0 : R) (centered : bool) (m : option R) (nest : bool), (forall c, rate L c = Fin (lr c)) -> 0 <= b < 1 -> 0 < eps -> 0 <= v0 ->
  exists T, rmsprop L (Fin b) (Fin eps) (Fin v0) centered (option_map Fin m) nest = Ok T /\
    emits true T (fun g _ n y => y = Fin (momentum_of m nest (fun i => - lr (count_at i) * rms_dir b eps v0 centered g i) n)).
Proof.
  intros P L lr b eps v0 c m nest HL Hb He Hv.
  assert (G : emits true (chain_gt [if c then scale_by_stddev (Fin b) (Fin eps) (Fin v0) else scale_by_rms (Fin b) (Fin eps) (Fin v0); scale_by_learning_rate L; opt_trace (option_map Fin m) nest])
     (fun g _ n y => y = Fin (momentum_of m nest (fun i => - lr (count_at i) * rms_dir b eps v0 c g i) n))).
  { eapply emits_impl; [|apply (emits_cons true _ _ _ _ (rms_dir_emits b eps v0 c Hb He Hv) (emits_cons true _ _ _ _ (emits_lr L lr HL) (emits_one _ _ _ (emits_opt_trace m nest))))].
    cbn beta. intros g q n y Hy. apply (Hy (rms_dir b eps v0 c g) ltac:(intros i _ z ->; reflexivity) (fun i => - lr (count_at i) * rms_dir b eps v0 c g i) ltac:(intros i _ z ->; reflexivity)). }
  destruct c; (eexists; split; [reflexivity|exact G]).
Qed.
Lemma adam_dir_0 b1 b2 g : 0 <= b1 < 1 -> 0 <= b2 < 1 -> 0 <= g 0%nat -> adam_dir b1 b2 1 0 g 0 = g 0%nat / (g 0%nat + 1).
Proof.
  intros H1 H2 Hg. unfold adam_dir. cbn zeta. rewrite satcount_small by lia. cbn [sum_f_R0 Nat.sub pow]. replace ((1 - b2) * (1 * (g 0%nat * g 0%nat)) / (1 - b2 * 1) + 0) with (g 0%nat * g 0%nat) by (field; lra). rewrite sqrt_square by exact Hg. field. lra.
Qed.
(*@ex C60_example *)
Lemma adamw_example : forall `{P : Platform}, exists T outs, adamw (LConst (Fin 2)) (Fin (9/10)) (Fin (999/1000)) (Fin 1) (Fin 0) (Fin 3) = Ok T /\
  trains T (one (Fin 5)) [(one (Fin 1), Some (one (Fin 5)))] outs /\ oelt outs 0 (0%nat, 0%nat) = Some (Fin (-31)).
Proof.
  intros P. destruct (@adamw_closed_form P (@LConst (XROps P) (Fin 2)) (fun _ => 2) (9/10) (999/1000) 1 0 3) as (T & E & HE); try lra; [reflexivity|].
  assert (HH : @hist_ok (XROps P) false (one (Fin 5)) [(one (Fin 1), Some (one (Fin 5)))]).
  { constructor; [|constructor]. split; [split; [reflexivity|apply one_wf]|]. intros _. exists (one (Fin 5)). split; [reflexivity|]. split; [reflexivity|apply one_wf]. }
  destruct (HE (one (Fin 5)) _ (one_wf _) HH) as (outs & Ht & _ & _ & He). exists T, outs. split; [exact E|]. split; [exact Ht|].
  destruct (He 0%nat (0%nat, 0%nat) (fun _ => 1) (fun _ => 5)) as (y & -> & ->); [cbn; lia|intros [|i] Hi; [reflexivity|lia]|intros _ [|i] Hi; [reflexivity|lia]|].
  do 2 f_equal. rewrite adam_dir_0 by lra. lra.
Qed.
