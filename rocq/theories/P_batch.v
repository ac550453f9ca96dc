(** Gradient accumulation is large-batch training (C94). *)
From Verif Require Import P_elem P_multi P_equiv P_pipe.
From Verif Require Export P_look2.
From Coq Require Import List Psatz.
Import ListNotations.
Open Scope R_scope.
(*@header
From Verif Require Import P_multi P_pipe.
From Coq Require Import List.
Import ListNotations.
Open Scope R_scope.
*)

(** ** Specification *)
(** An optimiser that never looks at the parameters, does not raise and keeps shapes, dtypes and the structure of its state ([I] holds of its states). *)
Definition params_free `{O : Ops} (opt : GT) (p : tree tensor) (I : state -> Prop) : Prop :=
  steady true opt p I /\ forall u s par, I s -> like p u -> update opt u s par = update opt u s None.

Lemma block_value_unique `{O : Ops} um p0 k blk (G G' : tree tensor) : trwf p0 -> block_value um p0 k blk G -> block_value um p0 k blk G' -> G = G'.
Proof.
  intros Wp H1 H2. assert (L : like p0 G /\ like p0 G') by (unfold block_value, block_sum in *; destruct um; tauto). destruct L as ((A1 & W1) & (A2 & W2)). apply (tree_eq p0); try assumption.
  intros pos. destruct (elt p0 pos) as [x|] eqn:Ex; [unfold block_value, block_sum in *; destruct um; destruct H1 as (_ & H1), H2 as (_ & H2); now rewrite (H1 pos x Ex), (H2 pos x Ex)|].
  assert (N : forall u : tree tensor, avals u = avals p0 -> trwf u -> elt u pos = None). { intros u Au Wu. destruct (tree_gzip u p0 Au Wu Wp) as (W & _ & _ & E1 & E2). rewrite <- E2, elt_emapt in Ex. rewrite <- E1, elt_emapt. destruct (elt W pos); [discriminate|reflexivity]. }
  now rewrite !N.
Qed.
Section Batch.
  Context {P : Platform}.
  Notation xr := (XROps P).
  (** Adding zeros changes nothing, not even NaN or an infinity. *)
  Lemma apply_zeros (p x g : tree (gt XR)) : trwf p -> @like xr p x -> @like xr p g -> @apply_updates xr x (@tmap _ _ (@zeros_like xr) g) = Ok x.
  Proof.
    intros Wp (Ax & Wx) (Ag & Wg). assert (Ez : tmap (@zeros_like xr) g = emapt (fun d _ => @fcast xr d (@fzero xr)) g) by (apply (@full_like_emapt xr); [exact Wg|reflexivity]).
    assert (Es : tmap (fun t => shp t) x = tmap (fun t => shp t) (tmap (@zeros_like xr) g)). { rewrite Ez. assert (E : avals x = avals (emapt (fun d _ => @fcast xr d (@fzero xr)) g)) by (rewrite emapt_avals; exact (eq_trans Ax (eq_sym Ag))). apply (f_equal (tmap snd)) in E. unfold avals in E. rewrite !tmap_tmap in E. exact E. }
    assert (Wz : trwf (tmap (@zeros_like xr) g)) by (rewrite Ez; now apply emapt_wf).
    destruct (@apply_updates_spec xr x _ Es Wx Wz) as (r & Er & (Ar & Wr) & He). exact (eq_trans Er (f_equal Ok _)) || (rewrite Er; f_equal).
    apply (tree_eq x); try assumption; [reflexivity|]. intros pos. destruct (elt x pos) as [v|] eqn:Ev.
    - assert (Eg : elt (tmap (@zeros_like xr) g) pos = Some (Fin 0)). { rewrite Ez, elt_emapt. destruct (tree_gzip g x (eq_trans Ag (eq_sym Ax)) Wg Wx) as (W & _ & _ & E1 & E2). rewrite <- E2, elt_emapt in Ev. rewrite <- E1, elt_emapt. destruct (elt W pos); [|discriminate]. cbn [option_map]. f_equal. exact (f0 P). }
      pose proof (He pos _ _ Ev Eg) as E. cbv zeta in E. nx. rewrite E. f_equal. unfold conv. destruct (fdt_eqb _ _), (fdt_eqb _ _), (fdt_eqb _ _); cbn [fcast fadd XROps]; destruct v; cbn; try reflexivity; f_equal; ring.
    - destruct (tree_gzip r x Ar Wr Wx) as (W & _ & _ & E1 & E2). rewrite <- E2, elt_emapt in Ev. rewrite <- E1, elt_emapt. destruct (elt W pos); [discriminate|reflexivity].
  Qed.
  Variables (opt : @GT xr) (I : @state xr -> Prop) (k : nat) (um : bool) (grads G : nat -> tree (gt XR) -> tree (gt XR)) (p : tree (gt XR)).
  Hypotheses (Hk : (1 <= k)%nat) (Hk2 : (Z.of_nat k < 2 ^ 31)%Z) (Wp : trwf p) (Hst : @steady xr true opt p I) (Hfree : forall u s par, I s -> @like xr p u -> @update xr opt u s par = @update xr opt u s None).
  Hypothesis Hgr : forall t x, @like xr p x -> @like xr p (grads t x).
  Hypothesis HG : forall j x, @like xr p x -> @block_value xr um p (Z.of_nat k) (map (fun l => grads (j * k + l)%nat x) (seq 0 k)) (G j x).
  Let T := @multi_steps xr opt (fun _ => Z.of_nat k) um.
  Let stt (r : nat) (c : Z) (s : @state xr) (acc : tree (gt XR)) : @state xr := SNode NMulti [SInt (@iw64 xr) (Z.of_nat r); SInt (@iw64 xr) c; s; STree acc].
  Lemma batch_apply x u : @like xr p x -> @like xr p u -> exists x', @apply_updates xr x u = Ok x' /\ @like xr p x'.
  Proof.
    intros (Ax & Wx) (Au & Wu). assert (Es : tmap (fun t => shp t) x = tmap (fun t => shp t) u). { assert (E : avals x = avals u) by exact (eq_trans Ax (eq_sym Au)). apply (f_equal (tmap snd)) in E. unfold avals in E. rewrite !tmap_tmap in E. exact E. }
    destruct (@apply_updates_spec xr x u Es Wx Wu) as (r & Er & (Ar & Wr) & _). exists r. split; [exact Er|]. split; [exact (eq_trans Ar Ax)|exact Wr].
  Qed.
  Lemma batch_step j r x s c acc : (r < k)%nat -> I s -> @like xr p x -> @block_sum xr p (map (fun l => grads (j * k + l)%nat x) (seq 0 r)) acc ->
    @fit xr opt G j p = Ok (x, s) -> @fit xr T grads (j * k + r) p = Ok (x, stt r c s acc) ->
    exists x' s' c' acc', I s' /\ @like xr p x' /\
      (if (S r =? k)%nat then @fit xr opt G (S j) p = Ok (x', s') /\ @block_sum xr p [] acc' /\ @fit xr T grads (S j * k) p = Ok (x', stt 0 c' s' acc')
       else x' = x /\ s' = s /\ @block_sum xr p (map (fun l => grads (j * k + l)%nat x) (seq 0 (S r))) acc' /\ @fit xr T grads (j * k + S r) p = Ok (x, stt (S r) c' s acc')).
  Proof.
    intros Hr HI Lx Hacc Eo Em. set (g := grads (j * k + r)%nat x). assert (Lg : @like xr p g) by now apply Hgr.
    destruct (@acc_step xr p Wp _ g acc Hacc Lg) as (acc' & Ea & Hacc').
    assert (Eseq : map (fun l => grads (j * k + l)%nat x) (seq 0 r) ++ [g] = map (fun l => grads (j * k + l)%nat x) (seq 0 (S r))) by (rewrite seq_S, map_app; reflexivity).
    nx. rewrite Eseq in Hacc'.
    pose proof (@mean_step xr (fun _ => Z.of_nat k) um p _ acc' 0%Z Hacc') as Hmean. cbv beta in Hmean.
    set (mean := @multi_mean xr um (Z.of_nat k) acc') in *.
    assert (Lm : @like xr p mean) by (unfold block_value, block_sum in Hmean; destruct um; apply Hmean).
    destruct Hst as (_ & Hup). destruct (Hup s mean None HI Lm ltac:(discriminate)) as (u & s1 & Eu & Lu & Sg & HI1).
    assert (EU : @update xr T g (stt r c s acc) (Some x) = Ok (if (Z.of_nat r <? Z.of_nat k - 1)%Z then (tmap (@zeros_like xr) g, stt (S r) c s acc') else (u, stt 0 (iwrap (@iw64 xr) (c + 1)) s1 (tmap (@zeros_like xr) acc')))).
    { unfold T, stt. cbn [multi_steps update multi_update]. nx. rewrite Ea. cbn [rbind]. fold mean. nx. rewrite Eu. cbn [rbind].
      rewrite (P_wrap.iwrap_small (@iw64 xr) (Z.of_nat r + 1)) by lia. replace (Z.of_nat r + 1)%Z with (Z.of_nat (S r)) by lia.
      apply (@cond_us_Ok xr). eexists _, _. split; [reflexivity|]. split; [reflexivity|]. split.
      - unfold sig_us. cbn [fst snd ssig map]. rewrite Sg. rewrite !(@zeros_of_eq xr), !(@zeros_of_avals xr). destruct Lu as (-> & _), Lg as (-> & _). destruct Hacc' as ((-> & _) & _). reflexivity.
      - reflexivity. }
    assert (Hz : @block_sum xr p [] (tmap (@zeros_like xr) acc')).
    { destruct Hacc' as ((Hx & Hxw) & _). assert (Ez : tmap (@zeros_like xr) acc' = tmap (@zeros_like xr) p); [|rewrite Ez; now apply (@zeros_block xr)].
      transitivity (tmap (fun a => @full xr (fst a) (snd a) (@fzero xr)) (avals acc')); [unfold avals; rewrite tmap_tmap; reflexivity|]. refine (eq_trans (f_equal (tmap (fun a => @full xr (fst a) (snd a) (@fzero xr))) Hx) _). unfold avals. rewrite tmap_tmap. reflexivity. }
    destruct (Nat.eqb_spec (S r) k) as [E|NE].
    - destruct (batch_apply x u Lx Lu) as (x' & Ex' & Lx'). exists x', s1, (iwrap (@iw64 xr) (c + 1)), (tmap (@zeros_like xr) acc'). split; [exact HI1|]. split; [exact Lx'|]. split; [|split; [exact Hz|]].
      + assert (EG : G j x = mean). { apply (@block_value_unique xr um p (Z.of_nat k) (map (fun l => grads (j * k + l)%nat x) (seq 0 k)) _ _ Wp); [now apply HG|]. rewrite <- E at 2. exact Hmean. }
        cbn [fit]. nx. rewrite Eo. cbn [rbind]. rewrite EG, Hfree by assumption. nx. rewrite Eu. cbn [rbind]. nx. rewrite Ex'. reflexivity.
      + replace (S j * k)%nat with (S (j * k + r)) by lia. cbn [fit]. nx. rewrite Em. cbn [rbind]. fold g. nx. rewrite EU. destruct (Z.ltb_spec (Z.of_nat r) (Z.of_nat k - 1)) as [|_]; [lia|]. cbn [rbind]. nx. rewrite Ex'. reflexivity.
    - exists x, s, c, acc'. split; [exact HI|]. split; [exact Lx|]. split; [reflexivity|]. split; [reflexivity|]. split; [exact Hacc'|].
      rewrite Nat.add_succ_r. cbn [fit]. nx. rewrite Em. cbn [rbind]. fold g. nx. rewrite EU. destruct (Z.ltb_spec (Z.of_nat r) (Z.of_nat k - 1)) as [_|]; [|lia]. cbn [rbind]. exact (f_equal (fun o => rbind o _) (apply_zeros p x g Wp Lx Lg)).
  Qed.
  Lemma batch_run : forall j r, (r < k)%nat -> exists x s c acc, I s /\ @like xr p x /\ @block_sum xr p (map (fun l => grads (j * k + l)%nat x) (seq 0 r)) acc /\
    @fit xr opt G j p = Ok (x, s) /\ @fit xr T grads (j * k + r) p = Ok (x, stt r c s acc).
  Proof.
    induction j as [|j IHj].
    - induction r as [|r IHr]; intros Hr.
      + destruct Hst as ((s0 & E0 & HI0) & _). exists p, s0, 0%Z, (tmap (@zeros_like xr) p). split; [exact HI0|]. split; [split; [reflexivity|exact Wp]|]. split; [now apply (@zeros_block xr)|].
        cbn [Nat.mul Nat.add fit]. nx. rewrite E0. split; [reflexivity|]. unfold T, multi_steps. cbn [init]. unfold multi_init. nx. rewrite E0. reflexivity.
      + destruct (IHr ltac:(lia)) as (x & s & c & acc & HI & Lx & Ha & E1 & E2). destruct (batch_step 0 r x s c acc ltac:(lia) HI Lx Ha E1 E2) as (x' & s' & c' & acc' & HI' & Lx' & H).
        destruct (Nat.eqb_spec (S r) k) as [|_]; [lia|]. destruct H as (-> & -> & Hb & Hf). exists x, s, c', acc'. auto.
    - induction r as [|r IHr]; intros Hr.
      + destruct (IHj (k - 1)%nat ltac:(lia)) as (x & s & c & acc & HI & Lx & Ha & E1 & E2). destruct (batch_step j (k - 1) x s c acc ltac:(lia) HI Lx Ha E1 E2) as (x' & s' & c' & acc' & HI' & Lx' & H).
        destruct (Nat.eqb_spec (S (k - 1)) k) as [_|]; [|lia]. destruct H as (Hf & Hb & Hm). exists x', s', c', acc'. rewrite Nat.add_0_r. auto.
      + destruct (IHr ltac:(lia)) as (x & s & c & acc & HI & Lx & Ha & E1 & E2). destruct (batch_step (S j) r x s c acc ltac:(lia) HI Lx Ha E1 E2) as (x' & s' & c' & acc' & HI' & Lx' & H).
        destruct (Nat.eqb_spec (S r) k) as [|_]; [lia|]. destruct H as (-> & -> & Hb & Hf). exists x, s, c', acc'. auto.
  Qed.
End Batch.

(*@ C94_large_batch : for every optimiser that ignores params, MultiSteps(opt, k) trained on micro-batch gradients is the optimiser trained on large batches: let G j x be the mean (or sum) of the micro-batch gradients grads (j k), ..., grads (j k + k - 1) at x. Then after m k + r micro-steps, r < k, the parameters are exactly those after m steps of opt on G, the wrapped state is exactly opt's own state, and the first r gradients of the next batch are in the accumulator; nothing ever raises. *)
Lemma large_batch : forall `{P : Platform} (opt : GT) (I : state -> Prop) (k : nat) (use_mean : bool) (grads G : nat -> tree tensor -> tree tensor) (p : tree tensor),
  (1 <= k)%nat -> (Z.of_nat k < 2 ^ 31)%Z -> trwf p -> params_free opt p I -> (forall t x, like p x -> like p (grads t x)) ->
  (forall j x, like p x -> block_value use_mean p (Z.of_nat k) (map (fun l => grads (j * k + l)%nat x) (seq 0 k)) (G j x)) ->
  forall m r, (r < k)%nat -> exists x s c acc, fit opt G m p = Ok (x, s) /\ like p x /\
    fit (multi_steps opt (fun _ => Z.of_nat k) use_mean) grads (m * k + r) p = Ok (x, SNode NMulti [SInt iw64 (Z.of_nat r); SInt iw64 c; s; STree acc]) /\
    block_sum p (map (fun l => grads (m * k + l)%nat x) (seq 0 r)) acc.
Proof.
  intros P opt I k um grads G p Hk Hk2 Wp (Hst & Hfree) Hgr HG m r Hr. destruct (batch_run opt I k um grads G p Hk Hk2 Wp Hst Hfree Hgr HG m r Hr) as (x & s & c & acc & _ & Lx & Ha & E1 & E2). exists x, s, c, acc. auto.
Qed.

(*@ C94_elementwise : every element-wise optimiser of the model that ignores params (sgd, momentum, adam, rmsprop, ... and chains of such) is one of those, in any arithmetic. *)
Lemma elementwise_free : forall `{O : Ops} (opt : GT) (M : machine) (p : tree tensor), refines true opt M -> trwf p -> exists I, params_free opt p I.
Proof.
  intros O opt M p (repr & sg & Hi & Hsg & Hnp & Hu) Hw. exists (fun s => exists n Z, s = repr n Z /\ avals Z = avals p /\ trwf Z).
  assert (K : forall (n : nat) (Z : tree (gt (mE M))) (u : tree tensor), avals Z = avals p -> trwf Z -> like p u -> exists W : tree (gt (F * F * mE M)), trwf W /\ avals W = avals p /\ u = emapt (fun _ z => fst (fst z)) W /\ Z = emapt (fun _ z => snd z) W).
  { intros _ Z u HZ HZw (Hua & Huw). destruct (tree_gzip u Z) as (W1 & A1 & B1 & <- & <-); [congruence|exact Huw|exact HZw|]. exists (emapt (fun _ z => (fst z, fst z, snd z)) W1). split; [now apply emapt_wf|]. rewrite !emapt_emapt. cbn [fst snd]. rewrite !emapt_avals in *. auto. }
  split; [split|].
  - rewrite Hi by exact Hw. eexists. split; [reflexivity|]. exists 0%nat, (emapt (m_init M) p). split; [reflexivity|]. rewrite emapt_avals. split; [reflexivity|now apply emapt_wf].
  - intros s u par (n & Z & -> & HZ & HZw) Lu _. destruct (K n Z u HZ HZw Lu) as (W & WW & AW & -> & ->).
    eexists _, _. split; [apply Hu; [exact WW|discriminate]|]. split; [split; [rewrite emapt_avals; exact AW|now apply emapt_wf]|]. split; [rewrite !Hsg, !emapt_avals; reflexivity|].
    eexists _, _. split; [reflexivity|]. rewrite emapt_avals. split; [exact AW|now apply emapt_wf].
  - intros u s par (n & Z & -> & HZ & HZw) Lu. destruct (K n Z u HZ HZw Lu) as (W & WW & AW & -> & ->). rewrite !Hu; auto; discriminate.
Qed.

(*@ex C94_example *)
Lemma batch_example : forall `{P : Platform} (m : nat), let p := Leaf (mkT F32 [2%nat] [Fin 5; Fin 1]) in let opt := scale_by_adam (Fin (9/10)) (Fin (99/100)) (Fin (1/100)) (Fin 0) in let sgd2 := scale (Fin (- (1/2))) in
  (exists I, params_free opt p I) /\
  exists x s s', fit sgd2 (fun _ => quad_grad) m p = Ok (x, s) /\ fit (multi_steps sgd2 (fun _ => 2%Z) true) (fun t => pull (t mod 2)) (m * 2) p = Ok (x, s').
Proof.
  intros P m. cbn zeta. set (p := Leaf (mkT F32 [2%nat] [Fin 5; Fin 1])). assert (Wp : trwf p) by (repeat constructor). split; [exact (@elementwise_free (XROps P) _ _ p (@refines_adam (XROps P) _ _ _ _) Wp)|].
  destruct (@elementwise_free (XROps P) _ _ p (@refines_scale (XROps P) (Fin (- (1/2)))) Wp) as (I & HI).
  destruct (@large_batch P (@scale (XROps P) (Fin (- (1/2)))) I 2 true (fun t => pull (t mod 2)) (fun _ => quad_grad) p ltac:(lia) ltac:(lia) Wp HI) with (m := m) (r := 0%nat) as (x & s & c & acc & E1 & _ & E2 & _).
  - intros t x (Ax & Wx). split; [unfold pull; rewrite emapt_avals; exact Ax|now apply emapt_wf].
  - intros j x (Ax & Wx). split; [split; [unfold quad_grad; rewrite emapt_avals; exact Ax|now apply emapt_wf]|]. intros pos v Ev.
    cbn [seq map]. replace ((j * 2 + 0) mod 2)%nat with 0%nat by (rewrite Nat.add_comm, Nat.mod_add by lia; reflexivity). replace ((j * 2 + 1) mod 2)%nat with 1%nat by (rewrite Nat.add_comm, Nat.mod_add by lia; reflexivity).
    assert (Ew : exists w, elt x pos = Some w). { destruct (tree_gzip x p Ax Wx Wp) as (W & _ & _ & F1 & F2). nx. rewrite <- F2, elt_emapt in Ev. rewrite <- F1, elt_emapt. destruct (elt W pos); [eexists; reflexivity|discriminate]. } destruct Ew as (w & Ew).
    unfold column, quad_grad, pull. cbn [flat_map]. rewrite !elt_emapt. nx. rewrite Ew. cbn [option_map app fold_left]. f_equal. change (@fcast (XROps P) (leafdt p pos) (@fzero (XROps P))) with (@fzero (XROps P)). rewrite (f0 P). replace (@fcast (XROps P) (leafdt p pos) (@fofZ (XROps P) (Z.of_nat 2))) with (Fin 2) by (unfold fofZ; cbn [fcast flit XROps]; now rewrite Q2R_Z).
    cbn [fadd fdiv XROps target]. destruct w as [w| | |]; [|cbn; unfold rsgn; repeat (destruct (Rlt_dec _ _) || destruct (Rle_dec _ _) || destruct (total_order_T _ _) || destruct (Req_EM_T _ _)); try lra; try reflexivity..]. unfold xsub. cbn [xneg xadd]. rewrite xdiv_fin by lra. f_equal. field.
  - lia.
  - rewrite Nat.add_0_r in E2. exists x, s. eexists. split; [exact E1|exact E2].
Qed.
