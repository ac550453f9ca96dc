(** alias.py: params, signatures, fromage, lamb, noisy_sgd, dpsgd. *)
From Verif Require Export P_alias.
From Coq Require Import List Psatz.
Import ListNotations.
Open Scope R_scope.
(*@header
From Coq Require Import List.
Import ListNotations.
Open Scope R_scope.
*)

(** ** Transformations that never raise and keep signatures *)
Definition stable `{O : Ops} (np : bool) (T : GT) (p : tree tensor) : Prop := exists I, steady np T p I.
Section Stable.
  Context `{O : Ops}.
  Lemma stable_weaken np T p : stable true T p -> stable np T p.
  Proof. intros (I & Hi & Hu). exists I. split; [exact Hi|]. intros s u par Hs Hl _. apply Hu; auto. discriminate. Qed.
  Lemma stable_refines np T M p : refines np T M -> trwf p -> stable np T p.
  Proof. apply refines_steady. Qed.
  Lemma stable_chain np Ts p : Forall (fun T => stable np T p) Ts -> stable np (chain_gt Ts) p.
  Proof.
    intros HF.
    assert (G : exists I : list state -> Prop, (exists ss, chain_init Ts p = Ok ss /\ I ss) /\ (forall ss, I ss -> length ss = length Ts) /\
      forall ss u par, I ss -> like p u -> (np = false -> exists q, par = Some q /\ like p q) ->
        exists u' ss', chain_update Ts ss u par = Ok (u', ss') /\ like p u' /\ map ssig ss' = map ssig ss /\ I ss').
    { induction HF as [|T Ts (I & (s0 & Ei & HI) & Hu) HF (J & (ss0 & Ej & HJ) & HlJ & HuJ)].
      - exists (fun ss => ss = []). split; [exists []; auto|]. split; [intros ss ->; reflexivity|]. intros ss u par -> Hl _. exists u, []. cbn. auto.
      - exists (fun l => match l with s :: ss => I s /\ J ss | [] => False end). split; [exists (s0 :: ss0); split; [cbn; now rewrite Ei; cbn; rewrite Ej|auto]|].
        split; [intros [|s ss] H; [easy|]; cbn; f_equal; apply HlJ, H|].
        intros [|s ss] u par HIJ Hl Hp; [easy|]. destruct HIJ as (H1 & H2). destruct (Hu s u par H1 Hl Hp) as (u1 & s1 & E1 & L1 & S1 & I1).
        destruct (HuJ ss u1 par H2 L1 Hp) as (u2 & ss2 & E2 & L2 & S2 & I2). exists u2, (s1 :: ss2). cbn [chain_update]. rewrite E1. cbn [rbind]. rewrite E2. cbn [rbind].
        split; [reflexivity|]. split; [exact L2|]. split; [cbn; congruence|auto]. }
    destruct G as (J & (ss0 & Ej & HJ) & HlJ & HuJ). exists (fun s => exists ss, s = SNode NList ss /\ J ss). split.
    - exists (SNode NList ss0). cbn. rewrite Ej. cbn. eauto.
    - intros s u par (ss & -> & Hss) Hl Hp. destruct (HuJ ss u par Hss Hl Hp) as (u' & ss' & E & L' & S' & J'). exists u', (SNode NList ss'). cbn [update chain_gt]. rewrite (HlJ ss Hss), Nat.eqb_refl, E. cbn [rbind].
      split; [reflexivity|]. split; [exact L'|]. split; [cbn; now rewrite S'|eauto].
  Qed.
  Lemma stable_runs np T p : stable np T p -> forall H, hist_ok np p H -> exists s0 outs s1, init T p = Ok s0 /\ run T s0 H = Ok (outs, s1) /\ length outs = length H /\ Forall (like p) outs /\ ssig s1 = ssig s0.
  Proof.
    intros (I & (s0 & Ei & HI) & Hu) H HH. exists s0.
    assert (G : forall s, I s -> exists outs s1, run T s H = Ok (outs, s1) /\ length outs = length H /\ Forall (like p) outs /\ ssig s1 = ssig s).
    { clear Ei HI s0. induction HH as [|[u par] H (Hl & Hp) HH IH]; intros s Hs; [exists [], s; auto|]. destruct (Hu s u par Hs Hl Hp) as (u' & s' & E & L & Sg & HI').
      destruct (IH s' HI') as (outs & s1 & Er & Hlen & Ho & Hsg). exists (u' :: outs), s1. cbn [run]. rewrite E. cbn [rbind]. rewrite Er. split; [reflexivity|]. split; [cbn; congruence|]. split; [now constructor|congruence]. }
    destruct (G s0 HI) as (outs & s1 & G1). eauto.
  Qed.
  (** A stateless transformation whose update succeeds and keeps signatures. *)
  Lemma stable_simple np T p (s0 : state) : init T p = Ok s0 ->
    (forall u par, like p u -> (np = false -> exists q, par = Some q /\ like p q) -> exists u', update T u s0 par = Ok (u', s0) /\ like p u') -> stable np T p.
  Proof.
    intros Ei Hu. exists (fun s => s = s0). split; [eauto|]. intros s u par -> Hl Hp. destruct (Hu u par Hl Hp) as (u' & E & L). exists u', s0. auto.
  Qed.
  Lemma trust_leaf_like m (a b : tensor) : twf a -> dt b = dt a -> exists r, trust_leaf m a b = Ok r /\ aval r = aval a /\ twf r.
  Proof.
    intros W E. unfold trust_leaf. rewrite E, promote_same. rewrite bin_scalar_r by exact W. eexists. split; [reflexivity|]. rewrite promote_same. split; [reflexivity|]. unfold twf in *. cbn. now rewrite map_length.
  Qed.
  Lemma stable_trust m p : trwf p -> stable false (scale_by_trust_ratio m) p.
  Proof.
    intros Wp. apply (stable_simple false _ p (SNode NTrust [])); [reflexivity|]. intros u par (Hua & Huw) Hp. destruct (Hp eq_refl) as (q & -> & (Hqa & Hqw)).
    destruct (tree_pair_tdef u q) as (z & <- & <-); [rewrite <- (tdef_tmap aval u), <- (tdef_tmap aval q); unfold avals in *; congruence|].
    assert (Hz : Forall (fun e => exists r, trust_leaf m (fst e) (snd e) = Ok r /\ aval r = aval (fst e) /\ twf r) (leaves z)).
    { unfold trwf in Huw. rewrite leaves_tmap, Forall_map in Huw. rewrite Forall_forall in *. intros e He. apply trust_leaf_like; [auto|].
      assert (Ha : map aval (leaves (tmap fst z)) = map aval (leaves (tmap snd z))) by (rewrite <- !leaves_tmap; f_equal; unfold avals in *; congruence).
      rewrite !leaves_tmap, !map_map in Ha. apply ext_in_map with (a := e) in Ha; [|exact He]. unfold aval in Ha. congruence. }
    destruct (tree_choice (fun e r => trust_leaf m (fst e) (snd e) = Ok r /\ aval r = aval (fst e) /\ twf r) z Hz) as (w & Ew & Hw). rewrite Forall_forall in Hw.
    exists (tmap snd w). cbn [update scale_by_trust_ratio stateless]. rewrite tmm2_same, <- Ew, tmapM_tmap. rewrite (tmapM_ext _ (fun e => Ok (snd e))) by (intros e He; apply Hw, He). rewrite tmapM_ok. split; [reflexivity|]. split.
    - rewrite <- Ew in Hua. rewrite <- Hua. unfold avals. rewrite !tmap_tmap. apply tree_ext; [now rewrite !tdef_tmap|]. rewrite !leaves_tmap. apply map_ext_in. intros e He. apply Hw, He.
    - unfold trwf. rewrite leaves_tmap. apply Forall_map, Forall_forall. intros e He. apply Hw, He.
  Qed.
  Lemma stable_noise eta gamma seed p : (forall k n, length (ksplit k n) = n) -> stable true (add_noise eta gamma seed) p.
  Proof.
    intros Hl. exists (fun s => exists c k, s = SNode NNoise [SInt I32 c; SKey k]). split; [eexists; split; [reflexivity|eauto]|].
    intros s u par (c & k & ->) (Hua & Huw) _. destruct (add_noise_step eta gamma seed u k c par Hl Huw) as (o & c' & Ec & Eu & Hd & Hlen & Ho).
    assert (Hk : forall j l, nth_error (leaves u) j = Some l -> exists kk, nth_error (ksplit k (length (leaves u) + 1)) (S j) = Some kk).
    { intros j l Hj. destruct (nth_error (ksplit k _) (S j)) eqn:E; [eauto|]. apply nth_error_None in E. rewrite Hl in E. assert (j < length (leaves u))%nat by (apply nth_error_Some; congruence). lia. }
    exists o. eexists. split; [exact Eu|]. split; [split|split; [reflexivity|eauto]].
    - rewrite <- Hua. apply avals_of_leaves; [exact Hd|]. intros j a Ha. destruct (Hk j a Ha) as (kk & Hkk). eexists. split; [apply (Ho j a kk Ha Hkk)|reflexivity].
    - unfold trwf in *. apply Forall_forall. intros x Hx. apply In_nth_error in Hx as (j & Ex). destruct (nth_error (leaves u) j) as [l|] eqn:El.
      + destruct (Hk j l El) as (kk & Hkk). pose proof (Ho j l kk El Hkk) as E2. rewrite Ex in E2. injection E2 as ->. apply noisy_wf. rewrite Forall_forall in Huw. exact (Huw _ (nth_error_In _ _ El)).
      + apply nth_error_None in El. assert (j < length (leaves o))%nat by (apply nth_error_Some; congruence). lia.
  Qed.
End Stable.

(** ** params required, or ignored *)
(** The update is the same whatever is passed as params, also None, for all updates and states. *)
Definition ignores_params `{O : Ops} (T : GT) : Prop := forall u s par par', update T u s par = update T u s par'.
(** With params None every call raises ValueError, for all updates and states. *)
Definition demands_params `{O : Ops} (T : GT) : Prop := forall u s, update T u s None = Err EValue.
(*@ C63_required : keep_params_nonnegative, add_decayed_weights, scale_by_trust_ratio and adaptive_grad_clip raise ValueError when params is None, for every updates tree and every state. *)
Lemma params_required : forall `{O : Ops} (wd m clipping eps : F),
  demands_params keep_params_nonnegative /\ demands_params (add_decayed_weights wd) /\ demands_params (scale_by_trust_ratio m) /\ demands_params (adaptive_grad_clip clipping eps).
Proof. intros O wd m c e. repeat split; intros u s; reflexivity. Qed.
Lemma ignores_chain `{O : Ops} Ts : Forall ignores_params Ts -> ignores_params (chain_gt Ts).
Proof.
  intros HF u s par par'. assert (G : forall ss u, chain_update Ts ss u par = chain_update Ts ss u par').
  { induction HF as [|T Ts HT HF IH]; intros [|s0 ss] v; try reflexivity. cbn [chain_update]. rewrite (HT v s0 par par'). destruct (update T v s0 par') as [[u1 s1]|]; [|reflexivity]. cbn [rbind]. now rewrite IH. }
  cbn [update chain_gt]. destruct s; try reflexivity. now rewrite G.
Qed.
(*@ C63_ignored : every other transformation gives the same result, or the same error, whatever params is, for every updates tree and every state. *)
Lemma params_ignored : forall `{O : Ops} (a b c d e x : F) (nest debias : bool) (acc : option fdt) (f : schedule) (k seed : Z),
  ignores_params identity /\ ignores_params (trace a nest acc) /\ ignores_params (ema a debias acc) /\ ignores_params (scale_by_rss a b) /\
  ignores_params (scale_by_rms a b c) /\ ignores_params (scale_by_stddev a b c) /\ ignores_params (scale_by_adam a b c d) /\ ignores_params (scale a) /\
  ignores_params (scale_by_belief a b c d) /\ ignores_params (scale_by_yogi a b c d e) /\ ignores_params (scale_by_radam a b c d e) /\
  ignores_params (scale_by_schedule f) /\ ignores_params (add_noise a b seed) /\ ignores_params (apply_every k) /\ ignores_params centralize /\
  ignores_params (scale_by_sm3 a b c) /\ ignores_params (clip a) /\ ignores_params (clip_by_global_norm a) /\ ignores_params zero_nans /\
  ignores_params (differentially_private_aggregate a b seed).
Proof. intros. repeat split; intros u s par par'; reflexivity. Qed.
(*@ C63_wrappers : a chain of transformations that ignore params ignores params; so do apply_if_finite and maybe_update around one; MultiSteps ignores params whatever it wraps. *)
Lemma params_wrappers : forall `{O : Ops} (Ts : list GT) (T T' : GT) (n : Z) (should : Z -> bool) (every : Z -> Z) (mean : bool), Forall ignores_params Ts -> ignores_params T ->
  ignores_params (chain_gt Ts) /\ ignores_params (apply_if_finite T n) /\ ignores_params (maybe_update T should) /\ ignores_params (multi_steps T' every mean).
Proof.
  intros O Ts T T' n should every mean HF HT. split; [now apply ignores_chain|]. split; [|split]; intros u s par par'; [| |reflexivity].
  - cbn [update apply_if_finite]. destruct s; try reflexivity. destruct n0; try reflexivity. destruct l as [|[] [|? [|[] [|si []]]]]; try reflexivity. now rewrite (HT u si par par').
  - cbn [update maybe_update]. destruct s; try reflexivity. destruct n0; try reflexivity. destruct l as [|si [|[] []]]; try reflexivity. now rewrite (HT u si par par').
Qed.
(*@ C63_ignoring_aliases : sgd, adam, adabelief, adagrad, radam, rmsprop, sm3, yogi, noisy_sgd and dpsgd give the same result whatever params is. *)
Lemma params_aliases : forall `{O : Ops} (L : lrate) (b1 b2 eps er th lr : F) (centered nest : bool) (m : option F) (seed : Z) (T : GT),
  In (Ok T) [sgd L m nest; adam L b1 b2 eps er; adabelief L b1 b2 eps; adagrad L b1 eps; radam L b1 b2 eps er th; rmsprop L b1 eps er centered m nest; sm3 lr b1; yogi L b1 b2 eps; noisy_sgd L b1 b2 seed; dpsgd L b1 b2 seed m nest] ->
  ignores_params T.
Proof.
  intros O L b1 b2 eps er th lr centered nest m seed T HT.
  assert (HL : ignores_params (scale_by_learning_rate L)) by (destruct L; intros u s par par'; reflexivity).
  assert (Hm : ignores_params (opt_trace m nest)) by (destruct m; intros u s par par'; reflexivity).
  assert (Hi : forall a b c d e z, ignores_params (scale_by_adam a b c d) /\ ignores_params (scale_by_belief a b c d) /\ ignores_params (scale_by_rss a b) /\ ignores_params (scale_by_radam a b c d e) /\ ignores_params (scale_by_rms a b c) /\ ignores_params (scale_by_stddev a b c) /\ ignores_params (scale_by_sm3 a b c) /\ ignores_params (scale a) /\ ignores_params (scale_by_yogi a b c d e) /\ ignores_params (add_noise a b z) /\ ignores_params (differentially_private_aggregate a b z)) by (intros; repeat split; intros u s par par'; reflexivity).
  cbn [In] in HT. unfold rmsprop, radam in HT. destruct centered; repeat (destruct HT as [HT|HT]; [try (destruct (feqb (py1m b2) fzero); [discriminate HT|]); injection HT as <-; apply ignores_chain; repeat constructor; solve [assumption | apply (Hi b1 b2 eps er th seed) | intros u s par par'; reflexivity]|]); destruct HT.
Qed.
(*@ C63_chain : a chain containing a transformation that demands params never succeeds with params None, from any state; it raises ValueError whenever the transformations before it succeed. *)
Lemma params_chain : forall `{O : Ops} (pre post : list GT) (T : GT), demands_params T -> forall (us : tree tensor) (n : sname) (ss : list state),
  (forall r, update (chain_gt (pre ++ T :: post)) us (SNode n ss) None <> Ok r) /\
  (forall u' s', length ss = length (pre ++ T :: post) -> update (chain_gt pre) us (SNode n (firstn (length pre) ss)) None = Ok (u', s') ->
     update (chain_gt (pre ++ T :: post)) us (SNode n ss) None = Err EValue).
Proof.
  intros O pre post T HT us n ss.
  assert (G1 : forall ss us r, length ss = length (pre ++ T :: post) -> chain_update (pre ++ T :: post) ss us None <> Ok r).
  { clear - HT. induction pre as [|t pre IH]; intros [|s ss] us r E; try discriminate E.
    - cbn [app chain_update]. rewrite HT. discriminate.
    - cbn [app chain_update]. destruct (update t us s None) as [[u1 s1]|]; cbn [rbind]; [|discriminate]. destruct (chain_update (pre ++ T :: post) ss u1 None) as [[u2 s2]|] eqn:E2; cbn [rbind]; [|discriminate]. apply IH in E2; [easy|]. now injection E. }
  split.
  - intros r. cbn [update chain_gt]. destruct (Nat.eqb_spec (length (pre ++ T :: post)) (length ss)) as [E|]; [|discriminate]. destruct (chain_update (pre ++ T :: post) ss us None) as [[u2 s2]|] eqn:E2; cbn [rbind]; [|discriminate]. apply G1 in E2; [easy|]. congruence.
  - intros u' s' E Hp. cbn [update chain_gt] in *. rewrite <- E, Nat.eqb_refl. assert (Hf : length (firstn (length pre) ss) = length pre) by (rewrite firstn_length, E, app_length; lia). rewrite Hf, Nat.eqb_refl in Hp.
    assert (G2 : forall ss us r, length ss = length (pre ++ T :: post) -> chain_update pre (firstn (length pre) ss) us None = Ok r -> chain_update (pre ++ T :: post) ss us None = Err EValue).
    { clear - HT. induction pre as [|t pre IH]; intros [|s ss] us r E Hr; try discriminate E.
      - cbn [app chain_update]. now rewrite HT.
      - cbn [app chain_update length firstn] in *. destruct (update t us s None) as [[u1 s1]|]; cbn [rbind] in *; [|discriminate]. destruct (chain_update pre (firstn (length pre) ss) u1 None) as [[u2 s2]|] eqn:E2; cbn [rbind] in Hr; [|discriminate]. rewrite (IH ss u1 _ ltac:(now injection E) E2). reflexivity. }
    destruct (chain_update pre (firstn (length pre) ss) us None) as [r|] eqn:Er; [|discriminate]. rewrite (G2 ss us r E Er). reflexivity.
Qed.
Lemma Forall2_length {A B} (R : A -> B -> Prop) l m : Forall2 R l m -> length l = length m.
Proof. induction 1; cbn; congruence. Qed.
Section Refuses.
  Context `{O : Ops}.
  Lemma forall2_of_stable np Ts p : Forall (fun T => stable np T p) Ts -> exists Is, Forall2 (fun T I => steady np T p I) Ts Is.
  Proof. induction 1 as [|T Ts (I & HI) HF (Is & IH)]; [exists []; constructor|]. exists (I :: Is). now constructor. Qed.
  Lemma chain_update_inv np p Ts Is : Forall2 (fun T I => steady np T p I) Ts Is -> forall ss u par, Forall2 (fun (I : state -> Prop) s => I s) Is ss -> like p u -> (np = false -> exists q, par = Some q /\ like p q) ->
    exists u' ss', chain_update Ts ss u par = Ok (u', ss') /\ like p u' /\ Forall2 (fun (I : state -> Prop) s => I s) Is ss'.
  Proof.
    induction 1 as [|T I Ts Is (_ & HT) HF IH]; intros ss u par HI Hu Hp; inversion HI as [|I0 s Is0 ss0 H1 H2]; subst.
    - exists u, []. repeat split; auto; apply Hu.
    - destruct (HT s u par H1 Hu Hp) as (u1 & s1 & E1 & L1 & _ & I1). destruct (IH ss0 u1 par H2 L1 Hp) as (u2 & ss2 & E2 & L2 & I2). exists u2, (s1 :: ss2). cbn [chain_update]. rewrite E1. cbn [rbind]. rewrite E2. split; [reflexivity|]. split; [exact L2|]. now constructor.
  Qed.
  Lemma chain_init_inv np p Ts Is : Forall2 (fun T I => steady np T p I) Ts Is -> exists ss, chain_init Ts p = Ok ss /\ Forall2 (fun (I : state -> Prop) s => I s) Is ss.
  Proof.
    induction 1 as [|T I Ts Is ((s & E & HI) & _) HF (ss & Es & IH)]; [exists []; split; [reflexivity|constructor]|]. exists (s :: ss). cbn [chain_init]. rewrite E. cbn [rbind]. rewrite Es. split; [reflexivity|now constructor].
  Qed.
  Lemma chain_refuses_later p pre T post H u : demands_params T -> Forall (fun T => stable true T p) pre -> Forall (fun T => stable false T p) (T :: post) -> hist_ok false p H -> like p u ->
    exists s0 outs s, init (chain_gt (pre ++ T :: post)) p = Ok s0 /\ run (chain_gt (pre ++ T :: post)) s0 H = Ok (outs, s) /\ update (chain_gt (pre ++ T :: post)) u s None = Err EValue.
  Proof.
    intros HT Hpre Hpost HH Hu. destruct (forall2_of_stable true pre p Hpre) as (Ip & HIp). destruct (forall2_of_stable false _ p Hpost) as (Iq & HIq).
    assert (HIp' : Forall2 (fun T I => steady false T p I) pre Ip).
    { clear - HIp. induction HIp as [|a I l Il (Hi & Hs) HF IH]; constructor; [|exact IH]. split; [exact Hi|]. intros s v par Ha Hv _. apply Hs; auto. discriminate. }
    pose proof (Forall2_app HIp' HIq) as HA. destruct (chain_init_inv false p _ _ HA) as (ss & Ei & HI). exists (SNode NList ss).
    assert (G : exists outs ss', run (chain_gt (pre ++ T :: post)) (SNode NList ss) H = Ok (outs, SNode NList ss') /\ Forall2 (fun (I : state -> Prop) s => I s) (Ip ++ Iq) ss').
    { clear Ei. revert ss HI. induction HH as [|[v par] H (Hl & Hp) HH IH]; intros ss HI; [exists [], ss; auto|]. cbn [fst snd] in *. destruct (chain_update_inv false p _ _ HA ss v par HI Hl Hp) as (u' & ss' & E & _ & HI').
      destruct (IH ss' HI') as (outs & ss2 & Er & HI2). exists (u' :: outs), ss2. split; [|exact HI2]. cbn [run]. cbn [update chain_gt]. rewrite (Forall2_length _ _ _ HA), <- (Forall2_length _ _ _ HI), Nat.eqb_refl, E. cbn [rbind]. rewrite Er. reflexivity. }
    destruct G as (outs & ss' & Er & HI'). exists outs, (SNode NList ss'). split; [cbn; now rewrite Ei|]. split; [exact Er|].
    pose proof (Forall2_length _ _ _ HA) as Hl1. pose proof (Forall2_length _ _ _ HI') as Hl2.
    apply Forall2_app_inv_l in HI' as (s1 & s2 & H1 & H2 & ->). destruct (chain_update_inv true p _ _ HIp s1 u None H1 Hu) as (u1 & s1' & E1 & _); [discriminate|].
    apply (proj2 (params_chain pre post T HT u NList (s1 ++ s2)) u1 (SNode NList s1')); [lia|].
    assert (Hl3 : length s1 = length pre) by (rewrite <- (Forall2_length _ _ _ H1), <- (Forall2_length _ _ _ HIp); reflexivity).
    rewrite <- Hl3, firstn_app, Nat.sub_diag, firstn_all. cbn [firstn]. rewrite app_nil_r. cbn [update chain_gt]. rewrite <- Hl3, Nat.eqb_refl, E1. reflexivity.
  Qed.
  Lemma stable_lr np L p : trwf p -> stable np (scale_by_learning_rate L) p.
  Proof. intros Wp. apply stable_weaken. destruct L; cbn [scale_by_learning_rate]; eapply stable_refines; try exact Wp; [apply refines_scale|apply refines_schedule]. Qed.
  Lemma stable_adam np b1 b2 eps er p : trwf p -> stable np (scale_by_adam b1 b2 eps er) p.
  Proof. intros Wp. apply stable_weaken. eapply stable_refines; [apply refines_adam|exact Wp]. Qed.
  Lemma stable_wd wd p : trwf p -> stable false (add_decayed_weights wd) p.
  Proof. intros Wp. eapply stable_refines; [apply refines_wd|exact Wp]. Qed.
End Refuses.
(*@ C63_demanding_aliases : adamw, lamb and fromage raise ValueError when params is None, for every gradients shaped like the parameters, in every state reached by training from init. *)
Lemma alias_refuses : forall `{O : Ops} (L : lrate) (lr b1 b2 eps er wd m : F) (T : GT) (p u : tree tensor) (H : list (tree tensor * option (tree tensor))),
  In (Ok T) [adamw L b1 b2 eps er wd; lamb L b1 b2 eps er wd; fromage lr m] -> trwf p -> hist_ok false p H -> like p u ->
  exists s0 outs s, init T p = Ok s0 /\ run T s0 H = Ok (outs, s) /\ update T u s None = Err EValue.
Proof.
  intros O L lr b1 b2 eps er wd m T p u H HT Wp HH Hu. destruct (params_required wd m m m) as (_ & Dw & _ & _).
  destruct HT as [HT|[HT|[HT|[]]]]; injection HT as <-.
  - apply (chain_refuses_later p [scale_by_adam b1 b2 eps er] (add_decayed_weights wd) [scale_by_learning_rate L] H u); auto; repeat constructor; auto using stable_adam, stable_wd, stable_lr.
  - apply (chain_refuses_later p [scale_by_adam b1 b2 eps er] (add_decayed_weights wd) [scale_by_trust_ratio fzero; scale_by_learning_rate L] H u); auto; repeat constructor; auto using stable_adam, stable_wd, stable_lr, stable_trust.
  - destruct (params_required wd m m m) as (_ & _ & Dt & _). apply (chain_refuses_later p [] (scale_by_trust_ratio m) [scale_by_learning_rate (LConst (fmul defdt (fcast defdt lr) (fromage_mult lr))); add_decayed_weights (fsub defdt (fromage_mult lr) (fcast defdt fone))] H u); auto; repeat constructor; auto using stable_wd, stable_trust. apply (stable_lr false (LConst _) p Wp).
Qed.
(*@ex C63_example *)
Lemma refuses_example : forall `{P : Platform}, exists T s0 outs s, adamw (LConst (Fin 2)) (Fin (9/10)) (Fin (999/1000)) (Fin 1) (Fin 0) (Fin 3) = Ok T /\
  init T ex_p = Ok s0 /\ run T s0 ex_H = Ok (outs, s) /\ update T ex_p s None = Err EValue /\ exists r, update T ex_p s (Some ex_p) = Ok r.
Proof.
  intros P. eexists. destruct (@alias_refuses (XROps P) (@LConst (XROps P) (Fin 2)) (Fin 1) (Fin (9/10)) (Fin (999/1000)) (Fin 1) (Fin 0) (Fin 3) (Fin 1) _ ex_p ex_p ex_H (or_introl eq_refl) ex_p_wf (ex_H_ok false) (conj eq_refl ex_p_wf)) as (s0 & outs & s & E1 & E2 & E3).
  exists s0, outs, s. split; [reflexivity|]. split; [exact E1|]. split; [exact E2|]. split; [exact E3|].
  assert (HS : stable false (chain_gt [@scale_by_adam (XROps P) (Fin (9/10)) (Fin (999/1000)) (Fin 1) (Fin 0); add_decayed_weights (Fin 3); scale_by_learning_rate (@LConst (XROps P) (Fin 2))]) ex_p).
  { apply stable_chain. repeat constructor; auto using stable_adam, stable_wd, stable_lr, ex_p_wf. }
  assert (HH : @hist_ok (XROps P) false ex_p (ex_H ++ [(ex_p, Some ex_p)])).
  { apply Forall_app. split; [apply ex_H_ok|]. constructor; [|constructor]. split; [split; [reflexivity|apply ex_p_wf]|]. intros _. exists ex_p. split; [reflexivity|]. split; [reflexivity|apply ex_p_wf]. }
  destruct (@stable_runs (XROps P) false _ ex_p HS _ HH) as (s0' & outs' & s1 & Ei & Er & _). assert (s0' = s0) as -> by exact (Ok_inj _ _ (eq_trans (eq_sym Ei) E1)).
  pose proof (eq_trans (eq_sym (@run_app (XROps P) _ s0 ex_H [(ex_p, Some ex_p)])) Er) as Er'. clear Er. rename Er' into Er. apply rbind_Ok in Er as ((o1 & t1) & Er1 & Er). pose proof (Ok_inj _ _ (eq_trans (eq_sym Er1) E2)) as E. injection E as -> ->.
  apply rbind_Ok in Er as ((o2 & t2) & Er2 & _). cbn [run] in Er2. apply rbind_Ok in Er2 as (r & Er2 & _). eauto.
Qed.

(** ** fromage *)
(** The factor of one leaf: max(|p|,m)/max(|g|,m), or 1 when one of these is zero. *)
Definition trust_k (m : R) (g p : gt XR) : R :=
  if Req_EM_T (Rmax (lnorm p) m) 0 then 1 else if Req_EM_T (Rmax (lnorm g) m) 0 then 1 else Rmax (lnorm p) m / Rmax (lnorm g) m.
Section Fromage.
  Context {P : Platform}.
  Notation xr := (XROps P).
  Lemma bin_aval op (a b : gt XR) : aval a = aval b -> @bin xr op a b = Ok (mkT (dt a) (shp a) (map2 (op (dt a)) (dat a) (dat b))).
  Proof.
    unfold aval. intros E. injection E as E1 E2. unfold bin. nx. rewrite <- E2, shape_eqb_refl, <- E1, promote_same. do 2 f_equal. generalize (dat a) (dat b). clear. induction l as [|x l IH]; intros [|y l']; cbn [map2]; try reflexivity. now rewrite !xconv, IH.
  Qed.
  Lemma sqrt_1p lr : 0 < sqrt (1 + lr * lr).
  Proof. apply sqrt_lt_R0. nra. Qed.
  Lemma mult_val lr : @fromage_mult xr (Fin lr) = Fin (/ sqrt (1 + lr * lr)).
  Proof.
    unfold fromage_mult. cbn [fcast fadd fmul fdiv fsqrt XROps]. rewrite f1, xmul_fin, xadd_fin, xsqrt_fin by nra. rewrite xdiv_fin; [f_equal; unfold Rdiv; ring|]. pose proof (sqrt_1p lr). lra.
  Qed.
  (** The three stages and apply_updates on one leaf. *)
  Definition leaf_step (lr m : XR) (g p : gt XR) : result (gt XR * gt XR) :=
    let* r1 := @trust_leaf xr m g p in
    let* r3 := @bin xr fadd (@sl xr fmul (fneg (fmul defdt (fcast defdt lr) (@fromage_mult xr lr))) r1) (@sl xr fmul (fsub defdt (@fromage_mult xr lr) (fcast defdt fone)) p) in
    let* r4 := @bin xr fadd p r3 in Ok (r3, @astype xr (dt p) r4).
  Lemma leaf_step_val lr m g p : 0 <= m -> twf g -> twf p -> aval g = aval p -> Forall isfin (dat g) -> Forall isfin (dat p) ->
    exists r3 r4, leaf_step (Fin lr) (Fin m) g p = Ok (r3, r4) /\ aval r3 = aval p /\ aval r4 = aval p /\ twf r3 /\ twf r4 /\
      dat r4 = map (fun z => Fin ((xval (snd z) - lr * trust_k m g p * xval (fst z)) / sqrt (1 + lr * lr))) (combine (dat g) (dat p)).
  Proof.
    intros Hm Wg Wp Ha Hg Hp. unfold leaf_step. destruct (@trust_leaf_like xr (Fin m) g p Wg) as (r1 & E1 & A1 & W1); [nx; unfold aval in Ha; congruence|].
    destruct (trust_leaf_val m g p Hm Wg Hg Hp) as (r1' & E1' & _ & (_ & D1)). rewrite E1 in E1'. injection E1' as <-. rewrite E1. cbn [rbind].
    fold (trust_k m g p) in D1. set (k := trust_k m g p) in *. rewrite !mult_val. cbn [fcast fmul fsub fneg XROps]. rewrite f1, xmul_fin, xsub_fin. cbn [xneg].
    unfold aval in *. nx. injection A1 as A1 A2. injection Ha as Ha1 Ha2.
    rewrite bin_aval by (unfold aval, sl, emap; cbn [dt shp]; nx; congruence). cbn [rbind]. rewrite bin_aval by (unfold aval, sl, emap; cbn [dt shp]; nx; congruence). cbn [rbind].
    eexists. eexists. split; [reflexivity|]. unfold sl, emap, astype. cbn [dt shp dat]. nx. split; [congruence|]. split; [reflexivity|]. unfold twf in *. cbn [shp dat].
    split; [rewrite map2_length, !map_length, W1, A2, Ha2, Wp; apply Nat.min_id|]. split; [rewrite map_length, !map2_length, !map_length, W1, A2, Ha2, Wp, !Nat.min_id; reflexivity|].
    rewrite D1, (map_ext _ (fun x => x)) by (intros; apply xconv). rewrite map_id. cbn [fadd fmul fcast XROps]. assert (Hl : length (dat g) = length (dat p)) by congruence. pose proof (sqrt_1p lr) as Hs. generalize dependent (sqrt (1 + lr * lr)). intros s Hs.
    clear - Hl Hg Hp Hs. revert Hl. generalize dependent (dat g). intros l Hl. generalize dependent (dat p). clear - Hl Hs. induction Hl as [|x l (y & ->) Hl IH]; intros [|x' l'] Hp E; try discriminate; [reflexivity|]. inversion Hp as [|? ? (y' & ->) Hp']; subst. cbn [map map2 combine fst snd xval]. f_equal; [|apply IH; auto].
    rewrite !xmul_fin, !xadd_fin. f_equal. field. lra.
  Qed.
  Lemma trust_k_bound m g p : 0 <= m -> 0 < trust_k m g p /\ (0 < Rmax (lnorm p) m -> trust_k m g p * lnorm g <= Rmax (lnorm p) m).
  Proof.
    intros Hm. unfold trust_k. pose proof (norm2_nonneg (map xval (dat p))) as Np. pose proof (norm2_nonneg (map xval (dat g))) as Ng. fold (lnorm p) in Np. fold (lnorm g) in Ng.
    pose proof (Rmax_l (lnorm p) m). pose proof (Rmax_l (lnorm g) m). pose proof (Rmax_r (lnorm p) m).
    destruct (Req_EM_T (Rmax (lnorm p) m) 0); [split; [lra|intros; lra]|]. destruct (Req_EM_T (Rmax (lnorm g) m) 0); [split; [lra|intros; lra]|].
    split; [apply Rdiv_lt_0_compat; lra|]. intros _. apply (Rmult_le_reg_r (Rmax (lnorm g) m)); [lra|]. replace (Rmax (lnorm p) m / Rmax (lnorm g) m * lnorm g * Rmax (lnorm g) m) with (Rmax (lnorm p) m * lnorm g) by (field; lra). nra.
  Qed.
  Lemma step_norm lr k (g p r : gt XR) : 0 <= k -> length (dat g) = length (dat p) -> dat r = map (fun z => Fin ((xval (snd z) - lr * k * xval (fst z)) / sqrt (1 + lr * lr))) (combine (dat g) (dat p)) ->
    lnorm r <= (lnorm p + Rabs lr * k * lnorm g) / sqrt (1 + lr * lr).
  Proof.
    intros Hk Hl E. pose proof (sqrt_1p lr) as Hs. unfold lnorm at 1. rewrite E, map_map. cbn [xval].
    replace (map (fun z => (xval (snd z) - lr * k * xval (fst z)) / sqrt (1 + lr * lr)) (combine (dat g) (dat p)))
      with (map (Rmult (/ sqrt (1 + lr * lr))) (vadd (map xval (dat p)) (map (Rmult (- (lr * k))) (map xval (dat g))))).
    2:{ unfold vadd. clear - Hl. revert Hl. generalize (dat g) (dat p). induction l as [|x l IH]; intros [|y l'] E; try discriminate; [reflexivity|]. cbn [map combine fst snd]. f_equal; [unfold Rdiv; ring|]. apply IH. now injection E. }
    rewrite norm2_scal, Rabs_right by (apply Rle_ge, Rlt_le, Rinv_0_lt_compat, Hs).
    pose proof (norm2_triangle (map xval (dat p)) (map (Rmult (- (lr * k))) (map xval (dat g))) ltac:(now rewrite !map_length)) as Ht. rewrite norm2_scal, Rabs_Ropp, Rabs_mult, (Rabs_right k) in Ht by lra. fold (lnorm p) in Ht. fold (lnorm g) in Ht.
    unfold Rdiv. rewrite Rmult_comm. apply Rmult_le_compat_r; [apply Rlt_le, Rinv_0_lt_compat, Hs|exact Ht].
  Qed.
End Fromage.
Section FromageStep.
  Context {P : Platform}.
  Notation xr := (XROps P).
  Lemma fromage_tree lr m T (p u : tree (gt XR)) : 0 <= m -> @fromage xr (Fin lr) (Fin m) = Ok T -> trwf p -> @like xr p u -> finite_tree p -> finite_tree u ->
    exists s0 u' q, init T p = Ok s0 /\ (forall p', init T p' = Ok s0) /\ update T u s0 (Some p) = Ok (u', s0) /\ @apply_updates xr p u' = Ok q /\ @like xr p u' /\ @like xr p q /\ finite_tree q /\
      forall j g a, nth_error (leaves u) j = Some g -> nth_error (leaves p) j = Some a ->
        exists r, nth_error (leaves q) j = Some r /\ aval g = aval a /\ twf g /\ twf a /\ dat r = map (fun z => Fin ((xval (snd z) - lr * trust_k m g a * xval (fst z)) / sqrt (1 + lr * lr))) (combine (dat g) (dat a)).
  Proof.
    intros Hm ET Wp (Hua & Huw) Hfp Hfu. injection ET as <-. exists (SNode NList [SNode NTrust []; SNode NEmpty []; SNode NEmpty []]).
    apply finite_leaves in Hfp, Hfu. unfold avals, trwf in *. nx.
    destruct (tree_pair aval aval u p Hua) as (z & Zu & Zp & Zs). rewrite Forall_forall in Zs.
    assert (Hz : Forall (fun e => exists r, leaf_step (Fin lr) (Fin m) (fst e) (snd e) = Ok r /\ aval (fst r) = aval (snd e) /\ aval (snd r) = aval (snd e) /\ twf (fst r) /\ twf (snd r) /\
        dat (snd r) = map (fun z => Fin ((xval (snd z) - lr * trust_k m (fst e) (snd e) * xval (fst z)) / sqrt (1 + lr * lr))) (combine (dat (fst e)) (dat (snd e)))) (leaves z)).
    { rewrite <- Zu, leaves_tmap, Forall_map in Huw, Hfu. rewrite <- Zp, leaves_tmap, Forall_map in Wp, Hfp. rewrite Forall_forall in *. intros e He.
      destruct (leaf_step_val lr m (fst e) (snd e) Hm (Huw e He) (Wp e He) (Zs e He) (Hfu e He) (Hfp e He)) as (r3 & r4 & H1). exists (r3, r4). exact H1. }
    destruct (tree_choice _ z Hz) as (w & Ew & Hw). rewrite Forall_forall in Hw. subst z. set (z := tmap fst w) in *.
    exists (tmap (fun e => fst (snd e)) w), (tmap (fun e => snd (snd e)) w).
    assert (Hr : forall e, In e (leaves w) -> exists r1, @trust_leaf xr (Fin m) (fst (fst e)) (snd (fst e)) = Ok r1 /\
      @bin xr fadd (@sl xr fmul (fneg (fmul defdt (@fcast xr defdt (Fin lr)) (@fromage_mult xr (Fin lr)))) r1) (@sl xr fmul (fsub defdt (@fromage_mult xr (Fin lr)) (fcast defdt fone)) (snd (fst e))) = Ok (fst (snd e)) /\
      exists r4, @bin xr fadd (snd (fst e)) (fst (snd e)) = Ok r4 /\ @astype xr (dt (snd (fst e))) r4 = snd (snd e)).
    { intros e He. destruct (Hw e He) as (E & _). unfold leaf_step in E. apply rbind_Ok in E as (r1 & E1 & E). apply rbind_Ok in E as (r3 & E3 & E). apply rbind_Ok in E as (r4 & E4 & E). injection E as E. exists r1. rewrite <- E. cbn [fst snd]. eauto. }
    destruct (tree_choice (fun (e : gt XR * gt XR * (gt XR * gt XR)) (r1 : gt XR) => @trust_leaf xr (Fin m) (fst (fst e)) (snd (fst e)) = Ok r1 /\
      @bin xr fadd (@sl xr fmul (fneg (fmul defdt (@fcast xr defdt (Fin lr)) (@fromage_mult xr (Fin lr)))) r1) (@sl xr fmul (fsub defdt (@fromage_mult xr (Fin lr)) (fcast defdt fone)) (snd (fst e))) = Ok (fst (snd e)) /\
      exists r4, @bin xr fadd (snd (fst e)) (fst (snd e)) = Ok r4 /\ @astype xr (dt (snd (fst e))) r4 = snd (snd e)) w) as (v & Ev & Hv); [now apply Forall_forall|]. rewrite Forall_forall in Hv.
    assert (Hin : forall e, In e (leaves v) -> In (fst e) (leaves w)) by (intros e He; rewrite <- Ev, leaves_tmap; now apply in_map).
    assert (Eu : tmap (fun e => fst (fst (fst e))) v = u) by (rewrite <- Zu; unfold z; rewrite <- Ev, !tmap_tmap; reflexivity).
    assert (Ep : tmap (fun e => snd (fst (fst e))) v = p) by (rewrite <- Zp; unfold z; rewrite <- Ev, !tmap_tmap; reflexivity).
    assert (E3 : tmap (fun e => fst (snd (fst e))) v = tmap (fun e => fst (snd e)) w) by (rewrite <- Ev, tmap_tmap; reflexivity).
    assert (E4 : tmap (fun e => snd (snd (fst e))) v = tmap (fun e => snd (snd e)) w) by (rewrite <- Ev, tmap_tmap; reflexivity).
    rewrite <- E3, <- E4. clear E3 E4 Zs Zp Zu Hz Hr.
    split; [reflexivity|]. split; [reflexivity|]. split; [|split; [|split; [|split; [|split]]]].
    - cbn [update chain_gt length Nat.eqb chain_update scale_by_trust_ratio stateless scale_by_learning_rate scale add_decayed_weights]. rewrite <- Eu, <- Ep.
      rewrite (tmm2_same _ _ _ v), (tmapM_ext _ (fun e => Ok (snd e))), tmapM_ok by (intros e He; apply (Hv e He)). cbn [rbind].
      rewrite tmap_tmap, (tmm2_same _ _ _ v), (tmapM_ext _ (fun e => Ok (fst (snd (fst e))))), tmapM_ok by (intros e He; apply (Hv e He)). reflexivity.
    - unfold apply_updates. rewrite <- Ep. rewrite (tmm2_same _ _ _ v), (tmapM_ext _ (fun e => Ok (snd (snd (fst e))))), tmapM_ok; [reflexivity|].
      intros e He. destruct (Hv e He) as (_ & _ & r4 & E4 & E5). cbn beta. rewrite E4. cbn [rbind]. exact (f_equal Ok E5).
    - split; [|unfold trwf; rewrite leaves_tmap; apply Forall_map, Forall_forall; intros e He; apply (Hw _ (Hin e He))].
      unfold avals. rewrite <- Ep, !tmap_tmap. apply tmap_ext. intros e He. apply (Hw _ (Hin e He)).
    - split; [|unfold trwf; rewrite leaves_tmap; apply Forall_map, Forall_forall; intros e He; apply (Hw _ (Hin e He))].
      unfold avals. rewrite <- Ep, !tmap_tmap. apply tmap_ext. intros e He. apply (Hw _ (Hin e He)).
    - unfold finite_tree, vals. rewrite leaves_tmap. apply Forall_concat. rewrite map_map. apply Forall_map, Forall_forall. intros e He. destruct (Hw _ (Hin e He)) as (_ & _ & _ & _ & _ & ->). apply Forall_map, Forall_forall. intros y _. eexists. reflexivity.
    - intros j g a. rewrite <- Eu, <- Ep, !nth_error_leaves_tmap. destruct (nth_error (leaves v) j) as [e|] eqn:Ee; [|discriminate]. cbn [option_map]. intros [= <-] [= <-]. eexists. split; [reflexivity|]. pose proof (nth_error_In _ _ Ee) as He. destruct (Hw _ (Hin e He)) as (_ & _ & _ & _ & _ & D).
      rewrite Forall_forall in Huw, Wp. split; [|split; [|split; [|exact D]]].
      + apply (f_equal (fun t => nth_error (leaves t) j)) in Hua. rewrite <- Eu, <- Ep, !tmap_tmap, !nth_error_leaves_tmap, Ee in Hua. cbn [option_map] in Hua. congruence.
      + apply Huw. rewrite <- Eu, leaves_tmap. apply (in_map (fun e => fst (fst (fst e)))), He.
      + apply Wp. rewrite <- Ep, leaves_tmap. apply (in_map (fun e => snd (fst (fst e)))), He.
  Qed.
End FromageStep.
Lemma nth_error_zip {A B} (l : list A) (m : list B) i x y : nth_error l i = Some x -> nth_error m i = Some y -> nth_error (combine l m) i = Some (x, y).
Proof. revert m i. induction l as [|a l IH]; intros [|b m] [|i]; cbn; try discriminate; [congruence|]. apply IH. Qed.
(*@ C61_step : one fromage step (update with params, then apply_updates) from any finite parameters and gradients of one signature succeeds, keeps the signature, and turns each element p of a leaf into (p - lr * k * g) / sqrt(1 + lr^2), k > 0 being the same number for the whole leaf: max(|p|,min_norm) / max(|g|,min_norm), or 1 if one of these is zero. *)
Lemma fromage_step : forall `{P : Platform} (lr m : R) (T : GT) (p u : tree tensor), 0 <= m -> fromage (Fin lr) (Fin m) = Ok T -> trwf p -> like p u -> finite_tree p -> finite_tree u ->
  exists s0 u' q, init T p = Ok s0 /\ update T u s0 (Some p) = Ok (u', s0) /\ apply_updates p u' = Ok q /\ like p u' /\ like p q /\ finite_tree q /\
    forall j g a, nth_error (leaves u) j = Some g -> nth_error (leaves p) j = Some a ->
      exists k, 0 < k /\
        (0 < Rmax (lnorm a) m -> 0 < Rmax (lnorm g) m -> k = Rmax (lnorm a) m / Rmax (lnorm g) m) /\
        (Rmax (lnorm a) m = 0 \/ Rmax (lnorm g) m = 0 -> k = 1) /\
        forall i x y, nth_error (dat a) i = Some (Fin x) -> nth_error (dat g) i = Some (Fin y) -> elt q (j, i) = Some (Fin ((x - lr * k * y) / sqrt (1 + lr ^ 2))).
Proof.
  intros P lr m T p u Hm ET Wp Hu Hfp Hfu. destruct (fromage_tree lr m T p u Hm ET Wp Hu Hfp Hfu) as (s0 & u' & q & Ei & _ & Eu & Eq & Lu & Lq & Fq & Hq). exists s0, u', q. repeat (split; [assumption|]).
  intros j g a Hg Ha. destruct (Hq j g a Hg Ha) as (r & Er & Av & Wg & Wa & D). exists (trust_k m g a). split; [now apply trust_k_bound|]. split; [|split].
  - intros H1 H2. unfold trust_k. destruct (Req_EM_T _ 0); [lra|]. destruct (Req_EM_T _ 0); [lra|reflexivity].
  - intros H1. unfold trust_k. destruct (Req_EM_T _ 0); [reflexivity|]. destruct (Req_EM_T _ 0); [reflexivity|]. destruct H1; easy.
  - intros i x y Hx Hy. unfold elt. cbn [fst snd]. nx. rewrite Er, D, nth_error_map, (nth_error_zip _ _ _ _ _ Hy Hx). cbn [option_map fst snd xval]. do 4 f_equal. ring.
Qed.
(*@ C61_no_blow_up : if a leaf of the parameters is not zero, or min_norm > 0, then whatever the gradient, its norm after one fromage step is at most (|p| + lr * max(|p|, min_norm)) / sqrt(1 + lr^2), which is at most (1 + lr)/sqrt(1 + lr^2) <= sqrt 2 times |p| when |p| >= min_norm. *)
Lemma fromage_bound : forall `{P : Platform} (lr m : R) (T : GT) (p u : tree tensor), 0 <= m -> 0 <= lr -> fromage (Fin lr) (Fin m) = Ok T -> trwf p -> like p u -> finite_tree p -> finite_tree u ->
  exists s0 u' q, init T p = Ok s0 /\ update T u s0 (Some p) = Ok (u', s0) /\ apply_updates p u' = Ok q /\
    forall j a r, nth_error (leaves p) j = Some a -> nth_error (leaves q) j = Some r -> 0 < m \/ 0 < lnorm a ->
      lnorm r <= (lnorm a + lr * Rmax (lnorm a) m) / sqrt (1 + lr ^ 2) /\
      (m <= lnorm a -> lnorm r <= (1 + lr) / sqrt (1 + lr ^ 2) * lnorm a) /\ (1 + lr) / sqrt (1 + lr ^ 2) <= sqrt 2.
Proof.
  intros P lr m T p u Hm Hlr ET Wp Hu Hfp Hfu. destruct (fromage_tree lr m T p u Hm ET Wp Hu Hfp Hfu) as (s0 & u' & q & Ei & _ & Eu & Eq & Lu & Lq & Fq & Hq). exists s0, u', q. repeat (split; [assumption|]).
  intros j a r Ha Hr Hpos. assert (Hg : exists g, nth_error (leaves u) j = Some g).
  { destruct Hu as (Hu & _). apply (f_equal (fun t => nth_error (leaves t) j)) in Hu. unfold avals in Hu. rewrite !nth_error_leaves_tmap in Hu. nx. rewrite Ha in Hu. destruct (nth_error (leaves u) j); [eauto|discriminate]. }
  destruct Hg as (g & Hg). destruct (Hq j g a Hg Ha) as (r' & Er & Av & Wg & Wa & D). nx. rewrite Hr in Er. injection Er as <-.
  assert (Hl : length (dat g) = length (dat a)) by (unfold twf, aval in *; congruence).
  destruct (trust_k_bound m g a Hm) as (Hk & Hkb). pose proof (step_norm lr _ g a r (Rlt_le _ _ Hk) Hl D) as Hn. rewrite (Rabs_right lr) in Hn by lra.
  pose proof (sqrt_1p lr) as Hs. replace (lr ^ 2) with (lr * lr) by ring. set (s := sqrt (1 + lr * lr)) in *.
  assert (Hmx : 0 < Rmax (lnorm a) m) by (pose proof (Rmax_l (lnorm a) m); pose proof (Rmax_r (lnorm a) m); destruct Hpos; lra). specialize (Hkb Hmx).
  assert (H1 : lnorm r <= (lnorm a + lr * Rmax (lnorm a) m) / s).
  { apply (Rle_trans _ _ _ Hn). unfold Rdiv. apply Rmult_le_compat_r; [apply Rlt_le, Rinv_0_lt_compat, Hs|]. nra. }
  split; [exact H1|]. split.
  - intros H2. rewrite Rmax_left in H1 by lra. apply (Rle_trans _ _ _ H1). right. field. lra.
  - unfold Rdiv. apply (Rmult_le_reg_r s); [exact Hs|]. replace ((1 + lr) * / s * s) with (1 + lr) by (field; lra). pose proof (Rle_0_sqr (1 - lr)) as Hq1. pose proof (Rle_0_sqr lr) as Hq2. unfold Rsqr in *. unfold s. rewrite <- sqrt_mult by lra. rewrite <- (sqrt_square (1 + lr)) at 1 by lra. apply sqrt_le_1; [|lra|lra]. nra.
Qed.
(*@ C61_training : along every training run with finite gradients, min_norm m > 0 and lr >= 0, no step fails, everything stays finite, and max(|p_n|, m) <= ((1 + lr)/sqrt(1 + lr^2))^n * max(|p_0|, m) for every leaf: the growth is independent of the gradients. *)
Lemma fromage_training : forall `{P : Platform} (lr m : R) (T : GT) (p : tree tensor) (gs : list (tree tensor)), 0 < m -> 0 <= lr -> fromage (Fin lr) (Fin m) = Ok T -> trwf p -> finite_tree p ->
  Forall (fun g => like p g /\ finite_tree g) gs ->
  exists s0 qs, init T p = Ok s0 /\ train_loop T s0 p gs = Ok (qs, s0) /\ length qs = length gs /\ Forall (like p) qs /\ Forall finite_tree qs /\
    forall n j a q r, nth_error (leaves p) j = Some a -> nth_error (p :: qs) n = Some q -> nth_error (leaves q) j = Some r ->
      Rmax (lnorm r) m <= ((1 + lr) / sqrt (1 + lr ^ 2)) ^ n * Rmax (lnorm a) m.
Proof.
  intros P lr m T p gs Hm Hlr ET Wp Hfp Hgs. set (c := (1 + lr) / sqrt (1 + lr ^ 2)).
  assert (Hc : 1 <= c).
  { unfold c. replace (lr ^ 2) with (lr * lr) by ring. pose proof (sqrt_1p lr) as Hs. apply (Rmult_le_reg_r (sqrt (1 + lr * lr))); [exact Hs|]. unfold Rdiv. rewrite Rmult_1_l, Rmult_assoc, Rinv_l, Rmult_1_r by lra.
    rewrite <- (sqrt_square (1 + lr)) by lra. apply sqrt_le_1; nra. }
  destruct (fromage_tree lr m T p p (Rlt_le _ _ Hm) ET Wp (conj eq_refl Wp) Hfp Hfp) as (s0 & _ & _ & Ei & Hinit & _).
  exists s0. enough (G : forall p0, like p p0 -> finite_tree p0 -> exists qs, train_loop T s0 p0 gs = Ok (qs, s0) /\ length qs = length gs /\ Forall (like p) qs /\ Forall finite_tree qs /\
    forall n j a q r, nth_error (leaves p0) j = Some a -> nth_error (p0 :: qs) n = Some q -> nth_error (leaves q) j = Some r -> Rmax (lnorm r) m <= c ^ n * Rmax (lnorm a) m).
  { destruct (G p (conj eq_refl Wp) Hfp) as (qs & Hq). exists qs. split; [exact Ei|exact Hq]. }
  clear Hfp Ei. induction Hgs as [|g gs (Lg & Fg) Hgs IH]; intros p0 L0 F0.
  - exists []. split; [reflexivity|]. split; [reflexivity|]. split; [constructor|]. split; [constructor|]. intros [|n] j a q r Ha Hq Hr; [|destruct n; discriminate]. injection Hq as <-. nx. rewrite Ha in Hr. injection Hr as <-. cbn [pow]. lra.
  - assert (L0g : like p0 g) by (destruct L0, Lg; split; [congruence|assumption]). destruct L0 as (A0 & W0).
    destruct (fromage_bound lr m T p0 g (Rlt_le _ _ Hm) Hlr ET W0 L0g F0 Fg) as (s0' & u' & q1 & Ei' & Eu & Eq & Hb).
    destruct (fromage_tree lr m T p0 g (Rlt_le _ _ Hm) ET W0 L0g F0 Fg) as (s0'' & u'' & q1' & Ei'' & _ & Eu' & Eq' & _ & Lq & Fq & _).
    assert (s0' = s0) as -> by exact (Ok_inj _ _ (eq_trans (eq_sym Ei') (Hinit p0))). assert (s0'' = s0) as -> by exact (Ok_inj _ _ (eq_trans (eq_sym Ei'') (Hinit p0))).
    assert (E1 : u'' = u') by (pose proof (Ok_inj _ _ (eq_trans (eq_sym Eu') Eu)) as E; now injection E). subst u''. assert (q1' = q1) as -> by exact (Ok_inj _ _ (eq_trans (eq_sym Eq') Eq)).
    assert (L1 : like p q1) by (destruct Lq as (Lq1 & Lq2); split; [exact (eq_trans Lq1 A0)|exact Lq2]).
    destruct (IH q1 L1 Fq) as (qs & El & Hl & Hlk & Hfin & Hn). exists (q1 :: qs). split.
    { cbn [train_loop]. rewrite Eu. cbn [rbind]. rewrite Eq. cbn [rbind]. rewrite El. reflexivity. }
    split; [cbn [length]; exact (f_equal S Hl)|]. split; [now constructor|]. split; [now constructor|].
    intros [|n] j a q r Ha Hq Hr.
    + injection Hq as <-. nx. rewrite Ha in Hr. injection Hr as <-. cbn [pow]. lra.
    + cbn [nth_error] in Hq. assert (H1 : exists a1, nth_error (leaves q1) j = Some a1).
      { destruct Lq as (Hu & _). apply (f_equal (fun t => nth_error (leaves t) j)) in Hu. unfold avals in Hu. rewrite !nth_error_leaves_tmap in Hu. nx. rewrite Ha in Hu. destruct (nth_error (leaves q1) j); [eauto|discriminate]. }
      destruct H1 as (a1 & H1). specialize (Hn n j a1 q r H1 Hq Hr). destruct (Hb j a a1 Ha H1 (or_introl Hm)) as (Hb1 & _). cbn [pow].
      assert (Hmx : Rmax (lnorm a1) m <= c * Rmax (lnorm a) m).
      { pose proof (Rmax_l (lnorm a) m). pose proof (Rmax_r (lnorm a) m). apply Rmax_lub; [|nra]. apply (Rle_trans _ _ _ Hb1). unfold c. pose proof (sqrt_1p lr) as Hs. replace (lr * lr) with (lr ^ 2) in Hs by ring.
        replace ((1 + lr) / sqrt (1 + lr ^ 2) * Rmax (lnorm a) m) with ((Rmax (lnorm a) m + lr * Rmax (lnorm a) m) / sqrt (1 + lr ^ 2)) by (field; lra).
        unfold Rdiv. apply Rmult_le_compat_r; [apply Rlt_le, Rinv_0_lt_compat, Hs|]. lra. }
      apply (Rle_trans _ _ _ Hn). assert (0 <= c ^ n) by (apply pow_le; lra). nra.
Qed.
Lemma hist_feed' `{O : Ops} p mid (H : list (tree tensor * option (tree tensor))) : length mid = length H -> Forall (like p) mid -> hist_ok true p (feed mid H).
Proof.
  intros Hl Hm. unfold feed. revert H Hl. induction Hm as [|a mid Ha Hm IH]; intros [|h H] Hl; try discriminate; [constructor|]. cbn.
  constructor; [split; [exact Ha|discriminate]|]. apply IH. now injection Hl.
Qed.
(*@ex C61_example *)
Lemma fromage_example : forall `{P : Platform}, let p := Leaf (mkT F32 [2%nat] [Fin 3; Fin 4]) in let g := Leaf (mkT F32 [2%nat] [Fin 0; Fin 10]) in
  exists T s0 u' q, fromage (Fin (3/4)) (Fin 1) = Ok T /\ init T p = Ok s0 /\ update T g s0 (Some p) = Ok (u', s0) /\ apply_updates p u' = Ok q /\
    elt q (0%nat, 0%nat) = Some (Fin (12/5)) /\ elt q (0%nat, 1%nat) = Some (Fin (1/5)).
Proof.
  intros P p g. eexists. destruct (fromage_step (3/4) 1 _ p g ltac:(lra) eq_refl) as (s0 & u' & q & E1 & E2 & E3 & _ & _ & _ & Hq); [repeat constructor|repeat constructor|repeat constructor; eexists; reflexivity|repeat constructor; eexists; reflexivity|].
  exists s0, u', q. split; [reflexivity|]. split; [exact E1|]. split; [exact E2|]. split; [exact E3|].
  destruct (Hq 0%nat _ _ eq_refl eq_refl) as (k & _ & Hk & _ & He).
  assert (N1 : lnorm (mkT F32 [2%nat] [Fin 3; Fin 4]) = 5). { unfold lnorm, norm2. cbn [dat map xval]. rewrite !rsum_cons, rsum_nil. etransitivity; [|apply (sqrt_square 5); lra]. f_equal. ring. }
  assert (N2 : lnorm (mkT F32 [2%nat] [Fin 0; Fin 10]) = 10). { unfold lnorm, norm2. cbn [dat map xval]. rewrite !rsum_cons, rsum_nil. etransitivity; [|apply (sqrt_square 10); lra]. f_equal. ring. }
  rewrite N1, N2 in Hk. rewrite !Rmax_left in Hk by lra. specialize (Hk ltac:(lra) ltac:(lra)). subst k.
  assert (Es : sqrt (1 + (3 / 4) ^ 2) = 5 / 4) by (replace (1 + (3 / 4) ^ 2) with ((5/4) * (5/4)) by field; apply sqrt_square; lra).
  split.
  - etransitivity; [exact (He 0%nat 3 0 eq_refl eq_refl)|]. rewrite Es. do 2 f_equal. field.
  - etransitivity; [exact (He 1%nat 4 10 eq_refl eq_refl)|]. rewrite Es. do 2 f_equal. field.
Qed.

(** ** noisy_sgd and dpsgd *)
Lemma nth_times_rate `{O : Ops} L mid n u : nth_error mid n = Some u -> nth_error (times_rate L mid) n = Some (emapt (fun d x => fmul d (fcast d (fneg (rate L (count_at n)))) x) u).
Proof.
  intros E. unfold times_rate. rewrite nth_error_map. assert (Hn : (n < length mid)%nat) by (apply nth_error_Some; congruence).
  assert (Es : nth_error (seq 0 (length mid)) n = Some n) by (rewrite (nth_error_nth' _ 0%nat) by (rewrite seq_length; exact Hn); rewrite seq_nth by exact Hn; reflexivity).
  rewrite (nth_error_zip _ _ _ _ _ Es E). reflexivity.
Qed.
Lemma times_rate_length `{O : Ops} L mid : length (times_rate L mid) = length mid.
Proof. unfold times_rate. rewrite map_length, combine_length, seq_length. apply Nat.min_id. Qed.
(*@ C62_noisy_sgd : the n-th update (n from 0) of noisy_sgd is -lr_n * g + (eta / (n+1)^gamma) * z, z being the standard normal drawn for that element: the noise is added after the learning rate and is not scaled by it. *)
Lemma noisy_sgd_formula : forall `{P : Platform} (L : lrate) (lr : Z -> R) (eta gamma : R) (seed : Z) (p0 : tree tensor) (H : list (tree tensor * option (tree tensor))),
  (forall c, rate L c = Fin (lr c)) -> (forall k n, length (ksplit k n) = n) -> Forall (fun h => trwf (fst h)) H -> (Z.of_nat (length H) <= int32_max)%Z ->
  exists T outs, noisy_sgd L (Fin eta) (Fin gamma) seed = Ok T /\ trains T p0 H outs /\ length outs = length H /\
    forall n u par j l k i g z, nth_error H n = Some (u, par) -> nth_error (leaves u) j = Some l -> nth_error (dat l) i = Some (Fin g) ->
        drawn (prng_key seed) (map (fun h => length (leaves (fst h))) H) n j = Some k -> knormal k (dt l) (shp l) i = Fin z ->
        oelt outs n (j, i) = Some (Fin (- lr (count_at n) * g + eta / Rpower (INR (S n)) gamma * z)).
Proof.
  intros P L lr eta gamma seed p0 H HL Hsp HH Hlen. set (mid := times_rate L (map fst H)). set (H' := feed mid H).
  assert (Hml : length mid = length H) by (unfold mid; rewrite times_rate_length; apply map_length).
  assert (Hnth : forall n u par, nth_error H n = Some (u, par) -> nth_error H' n = Some (emapt (fun d x => fmul d (fcast d (fneg (rate L (count_at n)))) x) u, par)).
  { intros n u par E. unfold H'. rewrite nth_feed by exact Hml. unfold mid. rewrite (nth_times_rate L (map fst H) n u), E; [reflexivity|]. rewrite nth_error_map, E. reflexivity. }
  assert (Hll : length H' = length H) by (unfold H', feed; rewrite combine_length, map_length; lia).
  assert (HH' : Forall (fun h => trwf (fst h)) H').
  { apply Forall_forall. intros h Hh. apply In_nth_error in Hh as (n & E). destruct (nth_error H n) as [[u par]|] eqn:Eh.
    - rewrite (Hnth n u par Eh) in E. injection E as <-. cbn [fst]. rewrite Forall_forall in HH. pose proof (HH _ (nth_error_In _ _ Eh)) as W. cbn [fst] in W. unfold trwf in *. unfold emapt. rewrite leaves_tmap. apply Forall_map. eapply Forall_impl; [|exact W]. intros a Wa. unfold twf in *. cbn. now rewrite map_length.
    - apply nth_error_None in Eh. assert (n < length H')%nat by (apply nth_error_Some; congruence). lia. }
  destruct (noise_formula eta gamma seed p0 H' Hsp HH' ltac:(lia)) as (outs & Ht & Hlo & Hn). eexists _, outs. split; [reflexivity|]. split.
  { apply chain_trains. exists mid. split; [apply lr_trains; reflexivity|]. apply chain_one_gt. exact Ht. }
  split; [lia|]. intros n u par j l k i g z E El Ei Ek Ez.
  assert (Ec : map (fun h => length (leaves (fst h))) H' = map (fun h => length (leaves (fst h))) H).
  { apply nth_error_ext. intros n'. rewrite !nth_error_map. destruct (nth_error H n') as [[u' par']|] eqn:E'.
    - rewrite (Hnth n' u' par' E'). cbn [option_map fst]. unfold emapt. rewrite leaves_tmap, map_length. reflexivity.
    - apply nth_error_None in E'. rewrite <- Hll in E'. apply nth_error_None in E'. rewrite E'. reflexivity. }
  etransitivity; [apply (Hn n _ par j (emap (fun d x => fmul d (fcast d (fneg (rate L (count_at n)))) x) l) k i (- lr (count_at n) * g) z (Hnth n u par E))|reflexivity].
  - unfold emapt. rewrite nth_error_leaves_tmap. nx. rewrite El. reflexivity.
  - unfold emap. cbn [dat]. rewrite nth_error_map. nx. rewrite Ei, HL. reflexivity.
  - rewrite Ec. exact Ek.
  - exact Ez.
Qed.
(*@ C62_dpsgd : in any arithmetic, dpsgd emits exactly what sgd (momentum trace, then minus the learning rate) emits on the sequence of privately aggregated gradients: aggregation first, then momentum, then -lr. *)
Lemma dpsgd_decomposition : forall `{O : Ops} (L : lrate) (clip mult : F) (seed : Z) (m : option F) (nest : bool) (p : tree tensor) (H : list (tree tensor * option (tree tensor))) (outs : list (tree tensor)),
  (exists T, dpsgd L clip mult seed m nest = Ok T /\ trains T p H outs) <->
  exists mid tr, trains (differentially_private_aggregate clip mult seed) p H mid /\ trains (opt_trace m nest) p (feed mid H) tr /\ outs = times_rate L tr.
Proof.
  intros O L clip mult seed m nest p H outs. transitivity (trains (chain_gt [differentially_private_aggregate clip mult seed; opt_trace m nest; scale_by_learning_rate L]) p H outs).
  - split; [intros (T & E & Ht); injection E as <-; exact Ht|intros Ht; eexists; split; [reflexivity|exact Ht]].
  - etransitivity; [exact (then_lr [_; _] L p H outs)|]. split.
    + intros (tr & E & ->). apply chain_trains in E as (mid & E1 & E2). exists mid, tr. split; [exact E1|]. split; [|reflexivity]. apply chain_one_gt. exact E2.
    + intros (mid & tr & E1 & E2 & ->). exists tr. split; [|reflexivity]. apply chain_trains. exists mid. split; [exact E1|]. apply chain_one_gt. exact E2.
Qed.
(** [u] holds the gradients of a batch of examples for parameters [p] of one dtype: every leaf has one more leading axis. *)
Definition per_example `{O : Ops} (p u : tree tensor) : Prop :=
  leaves p <> [] /\ (exists d, Forall (fun l => dt l = d) (leaves p)) /\ trwf u /\ exists B, avals u = tmap (fun l => (dt l, B :: shp l)) p.
Section DPlike.
  Context `{O : Ops}.
  Lemma per_example_leaf (p u : tree tensor) B j (a l : tensor) : avals u = tmap (fun l => (dt l, B :: shp l)) p -> nth_error (leaves p) j = Some a -> nth_error (leaves u) j = Some l -> dt l = dt a /\ shp l = B :: shp a.
  Proof. intros E Ha Hl. apply (f_equal (fun t => nth_error (leaves t) j)) in E. unfold avals in E. rewrite !nth_error_leaves_tmap, Ha, Hl in E. cbn in E. unfold aval in E. injection E as E1 E2. auto. Qed.
  Lemma per_example_batch (p u : tree tensor) : per_example p u -> exists B, batch B u /\ avals u = tmap (fun l => (dt l, B :: shp l)) p.
  Proof.
    intros (Hne & _ & W & B & E). exists B. split; [|exact E]. pose proof (f_equal (fun t => length (leaves t)) E) as El. unfold avals in El. rewrite !leaves_tmap, !map_length in El. split.
    - destruct (leaves u); [|discriminate]. destruct (leaves p); [easy|discriminate].
    - apply Forall_forall. intros l Hl. split; [exact (proj1 (Forall_forall _ _) W l Hl)|]. apply In_nth_error in Hl as (j & Ej). destruct (nth_error (leaves p) j) as [a|] eqn:Ea.
      + exists (shp a). apply (per_example_leaf p u B j a l E Ea Ej).
      + apply nth_error_None in Ea. assert (j < length (leaves u))%nat by (apply nth_error_Some; congruence). lia.
  Qed.
  Lemma dp_like clip mult seed p H : (forall k n, length (ksplit k n) = n) -> Forall (fun h => per_example p (fst h)) H ->
    exists mid, trains (differentially_private_aggregate clip mult seed) p H mid /\ length mid = length H /\ Forall (like p) mid.
  Proof.
    intros Hsp HH. destruct (dp_run clip mult seed p H Hsp) as (mid & Ht & Hl & Hn); [eapply Forall_impl; [|exact HH]; cbn beta; intros h Hh; destruct (per_example_batch p (fst h) Hh) as (B & HB & _); eauto|].
    exists mid. split; [exact Ht|]. split; [exact Hl|]. apply Forall_forall. intros o Ho. apply In_nth_error in Ho as (n & Eo).
    destruct (nth_error H n) as [[u par]|] eqn:Eh; [|apply nth_error_None in Eh; assert (n < length mid)%nat by (apply nth_error_Some; congruence); lia].
    rewrite Forall_forall in HH. pose proof (HH _ (nth_error_In _ _ Eh)) as Hpe. cbn [fst] in Hpe. destruct (per_example_batch p u Hpe) as (B & Hb & Ea). destruct Hpe as (Hne & (d & Hd) & Wu & _).
    destruct (Hn n u par B Eh Hb) as (o' & Eo' & Hdo & Hj). rewrite Eo in Eo'. injection Eo' as <-.
    assert (Hk : forall j, (j < length (leaves u))%nat -> exists k, drawn (prng_key seed) (map (fun h => length (leaves (fst h))) H) n j = Some k).
    { intros j Hjl. unfold drawn. set (K := carried _ _). assert (En : nth n (map (fun h => length (leaves (fst h))) H) 0%nat = length (leaves u)).
      { apply nth_error_nth. rewrite nth_error_map, Eh. reflexivity. }
      rewrite En. destruct (nth_error (ksplit K _) (S j)) eqn:E; [eauto|]. apply nth_error_None in E. rewrite Hsp in E. lia. }
    assert (Hjj : forall j a l, nth_error (leaves p) j = Some a -> nth_error (leaves u) j = Some l -> exists k, nth_error (leaves o) j = Some (dp_leaf clip mult B (leaves u) l k)).
    { intros j a l Hpa Hul. destruct (Hk j) as (k & Ek); [apply nth_error_Some; congruence|]. exists k. exact (Hj j l k Hul Ek). }
    pose proof (f_equal (fun t => length (leaves t)) Ea) as El. unfold avals in El. rewrite !leaves_tmap, !map_length in El.
    assert (Hdt : forall l, In l (leaves u) -> dt l = d).
    { intros l Hin. apply In_nth_error in Hin as (j & Ej). destruct (nth_error (leaves p) j) as [a|] eqn:Epa; [|apply nth_error_None in Epa; assert (j < length (leaves u))%nat by (apply nth_error_Some; congruence); lia].
      destruct (per_example_leaf p u B j a l Ea Epa Ej) as (-> & _). rewrite Forall_forall in Hd. apply Hd. exact (nth_error_In _ _ Epa). }
    assert (Hnd : fst (dp_norm (leaves u) 0) = d).
    { unfold dp_norm. rewrite global_norm_dt. apply pysum_same_dt.
      - cbn [leaves]. destruct Hb as (Hne' & _). destruct (leaves u); [easy|]. cbn. discriminate.
      - apply Forall_map. cbn [leaves]. apply Forall_forall. intros x Hx. cbn [fst]. apply in_flat_map in Hx as (y & Hy & Hx). apply in_map_iff in Hy as (g & <- & Hg). destruct Hx as [<-|[]]. cbn [dt dp_row]. now apply Hdt. }
    assert (Hup : forall j a, nth_error (leaves p) j = Some a -> exists l, nth_error (leaves u) j = Some l).
    { intros j a Epa. destruct (nth_error (leaves u) j) eqn:E; [eauto|]. apply nth_error_None in E. assert (j < length (leaves p))%nat by (apply nth_error_Some; congruence). lia. }
    split.
    - apply avals_of_leaves. { rewrite Hdo. apply (f_equal tdef) in Ea. unfold avals in Ea. rewrite !tdef_tmap in Ea. exact Ea. }
      intros j a Epa. destruct (Hup j a Epa) as (l & Eul). destruct (Hjj j a l Epa Eul) as (k & Ek). eexists. split; [exact Ek|]. destruct (per_example_leaf p u B j a l Ea Epa Eul) as (D1 & D2).
      unfold aval. cbn [dp_leaf dt shp dp_clipped]. rewrite Hnd, D1, D2. rewrite <- D1, (Hdt l (nth_error_In _ _ Eul)), promote_same. reflexivity.
    - apply Forall_forall. intros x Hx. apply In_nth_error in Hx as (j & Ex). destruct (nth_error (leaves p) j) as [a|] eqn:Epa.
      + destruct (Hup j a Epa) as (l & Eul). destruct (Hjj j a l Epa Eul) as (k & Ek). rewrite Ex in Ek. injection Ek as ->. unfold twf. cbn [dp_leaf dat shp dp_clipped]. rewrite map2_length, map_length, !seq_length. apply Nat.min_id.
      + apply nth_error_None in Epa. assert (length (leaves o) = length (leaves u)) by (unfold tdef in Hdo; apply (f_equal (fun t => length (leaves t))) in Hdo; rewrite !leaves_tmap, !map_length in Hdo; exact Hdo). assert (j < length (leaves o))%nat by (apply nth_error_Some; congruence). lia.
  Qed.
End DPlike.
(*@ C62_dpsgd_closed_form : for parameters of one dtype and batches of per-example gradients, dpsgd never fails, its updates have the signature of the parameters, and every element whose aggregated gradients d_0 .. d_n are finite gets -lr_n times the momentum trace of d. *)
Lemma dpsgd_closed_form : forall `{P : Platform} (L : lrate) (lr : Z -> R) (clip mult : XR) (seed : Z) (m : option R) (nest : bool) (p : tree tensor) (H : list (tree tensor * option (tree tensor))),
  (forall c, rate L c = Fin (lr c)) -> (forall k n, length (ksplit k n) = n) -> trwf p -> Forall (fun h => per_example p (fst h)) H ->
  exists T agg outs, dpsgd L clip mult seed (option_map Fin m) nest = Ok T /\ trains (differentially_private_aggregate clip mult seed) p H agg /\ trains T p H outs /\ length outs = length H /\ Forall (like p) outs /\
    forall n pos d, (n < length H)%nat -> (forall i, (i <= n)%nat -> oelt agg i pos = Some (Fin (d i))) -> oelt outs n pos = Some (Fin (- lr (count_at n) * momentum_of m nest d n)).
Proof.
  intros P L lr clip mult seed m nest p H HL Hsp Wp HH. destruct (@dp_like (XROps P) clip mult seed p H Hsp HH) as (agg & Ha & Hla & Hlk).
  destruct (sgd_emits L lr m nest HL) as (T & ET & HE). injection ET as <-.
  assert (Hok : @hist_ok (XROps P) true p (feed agg H)).
  { apply hist_feed'; assumption. }
  destruct (HE p (feed agg H) Wp Hok) as (outs & Ht & Hlo & Hlik & Hn). assert (Hf : length (feed agg H) = length H) by (unfold feed; rewrite combine_length, map_length; lia).
  eexists _, agg, outs. split; [reflexivity|]. split; [exact Ha|]. split; [apply chain_trains; exists agg; split; [exact Ha|exact Ht]|]. split; [lia|]. split; [exact Hlik|].
  intros n pos d Hn' Hd. destruct (Hn n pos d (fun _ => 0)) as (y & Ey & ->); [lia| |discriminate|exact Ey].
  intros i Hi. specialize (Hd i Hi). unfold helt, oelt in *. rewrite nth_feed by exact Hla. destruct (nth_error agg i); [|discriminate]. destruct (nth_error H i) eqn:E; [exact Hd|]. apply nth_error_None in E. lia.
Qed.
(*@ex C62_example *)
Lemma noisy_example : exists T outs, @noisy_sgd (XROps ones_platform) (@LSched (XROps ones_platform) (fun c => Fin (IZR c + 1))) (Fin 6) (Fin 1) 7 = Ok T /\ @trains (XROps ones_platform) T ex_p ex_H outs /\
  oelt outs 2 (0%nat, 1%nat) = Some (Fin (-7)).
Proof.
  destruct (@noisy_sgd_formula ones_platform (@LSched (XROps ones_platform) (fun c => Fin (IZR c + 1))) (fun c => IZR c + 1) 6 1 7 ex_p ex_H (fun c => eq_refl) ones_split) as (T & outs & ET & Ht & _ & Hn); [repeat constructor|vm_compute; discriminate|].
  exists T, outs. split; [exact ET|]. split; [exact Ht|].
  rewrite (Hn 2%nat (ex_g 3) (Some ex_p) 0%nat (mkT F32 [2%nat] [Fin 1; Fin 3]) (FChild (FChild (FChild (FRoot 7) 3 0) 3 0) 3 1) 1%nat 3 1 eq_refl eq_refl eq_refl eq_refl eq_refl).
  do 2 f_equal. rewrite Rpower_1 by (cbn; lra). change (count_at 2) with 2%Z. cbn [INR]. field.
Qed.
Definition dp_p : tree (gt XR) := Node KList [Leaf (mkT F32 [1%nat] [Fin 1]); Leaf (mkT F32 [1%nat] [Fin 1])].
(*@ex C62_dpsgd_example *)
Lemma dpsgd_example : exists T agg outs, @dpsgd (XROps ones_platform) (@LConst (XROps ones_platform) (Fin 2)) (Fin 1) (Fin 1) 7 (Some (Fin (1/2))) false = Ok T /\
  @trains (XROps ones_platform) T dp_p [(dp_ex 1 2 3 4, None); (dp_ex 3 (3 / 10) 4 (4 / 10), None)] outs /\
  @trains (XROps ones_platform) (@differentially_private_aggregate (XROps ones_platform) (Fin 1) (Fin 1) 7) dp_p [(dp_ex 1 2 3 4, None); (dp_ex 3 (3 / 10) 4 (4 / 10), None)] agg /\
  forall d0 d1, oelt agg 0 (1%nat, 0%nat) = Some (Fin d0) -> oelt agg 1 (1%nat, 0%nat) = Some (Fin d1) -> oelt outs 1 (1%nat, 0%nat) = Some (Fin (- 2 * (d1 + d0 / 2))).
Proof.
  assert (Hp : forall a b c d, @per_example (XROps ones_platform) dp_p (dp_ex a b c d)).
  { intros. split; [discriminate|]. split; [exists F32; repeat constructor|]. split; [repeat constructor|]. exists 2%nat. reflexivity. }
  destruct (@dpsgd_closed_form ones_platform (@LConst (XROps ones_platform) (Fin 2)) (fun _ => 2) (Fin 1) (Fin 1) 7 (Some (1/2)) false dp_p [(dp_ex 1 2 3 4, None); (dp_ex 3 (3 / 10) 4 (4 / 10), None)] (fun _ => eq_refl) ones_split) as (T & agg & outs & ET & Ha & Ht & _ & _ & Hn); [repeat constructor|constructor; [apply Hp|constructor; [apply Hp|constructor]]|].
  exists T, agg, outs. split; [exact ET|]. split; [exact Ht|]. split; [exact Ha|]. intros d0 d1 H0 H1.
  rewrite (Hn 1%nat (1%nat, 0%nat) (fun i => match i with O => d0 | _ => d1 end)); [|cbn; lia|intros [|[|i]] Hi; [exact H0|exact H1|lia]].
  do 2 f_equal. unfold momentum_of. cbn. field.
Qed.
