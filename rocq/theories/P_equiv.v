(** Interchangeable configurations (C80). *)
From Verif Require Export P_multi2 P_regret.
From Coq Require Import List Psatz Qreals.
Import ListNotations.
Open Scope R_scope.
(*@header
From Coq Require Import List.
Import ListNotations.
Open Scope R_scope.
*)

(** ** Specification *)
(** Gradients (and params, when used) of a history are finite. *)
Definition finite_hist `{P : Platform} (np : bool) (H : list (tree (gt XR) * option (tree (gt XR)))) : Prop :=
  Forall (fun h => finite_tree (fst h) /\ (np = false -> forall q, snd h = Some q -> finite_tree q)) H.
(** From any parameters, on every finite history of gradients (and params, when [np] is false), both succeed and emit the same trees. *)
Definition interchangeable `{P : Platform} (np : bool) (T1 T2 : GT) : Prop :=
  forall (p : tree tensor) H, trwf p -> hist_ok np p H -> finite_hist np H -> exists outs, trains T1 p H outs /\ trains T2 p H outs.

Lemma elt_vals {A} (u : tree (gt A)) pos x : elt u pos = Some x -> In x (vals u).
Proof.
  unfold elt, vals. destruct (nth_error (leaves u) (fst pos)) as [t|] eqn:E; [|discriminate]. intros Hx. apply nth_error_In in E. apply nth_error_In in Hx.
  apply in_concat. exists (dat t). split; [now apply in_map|exact Hx].
Qed.
Lemma tree_eq {A} (p u v : tree (gt A)) : trwf p -> avals u = avals p -> trwf u -> avals v = avals p -> trwf v -> (forall pos, elt u pos = elt v pos) -> u = v.
Proof.
  intros Wp Eu Wu Ev Wv H. destruct (tree_gzip u v (eq_trans Eu (eq_sym Ev)) Wu Wv) as (z & _ & _ & <- & <-).
  apply emapt_ext_in. intros l x Hl Hx. apply In_nth_error in Hl as (i & Hi). apply In_nth_error in Hx as (j & Hj).
  specialize (H (i, j)). rewrite !elt_emapt in H. unfold elt in H. cbn [fst snd] in H. rewrite Hi, Hj in H. cbn in H. now injection H.
Qed.

Section Same.
  Context {P : Platform}.
  Notation xr := (XROps P).
  Lemma outs_eq np (p : tree (gt XR)) H o1 o2 : trwf p -> @hist_ok xr np p H -> @finite_hist P np H -> length o1 = length H -> length o2 = length H -> Forall (@like xr p) o1 -> Forall (@like xr p) o2 ->
    (forall n pos (g q : nat -> R), (n < length H)%nat -> (forall i, (i <= n)%nat -> helt H i pos = Some (Fin (g i))) -> (np = false -> forall i, (i <= n)%nat -> hpelt H i pos = Some (Fin (q i))) -> oelt o1 n pos = oelt o2 n pos) -> o1 = o2.
  Proof.
    intros Wp HH HF L1 L2 K1 K2 V.
    apply nth_error_ext. intros n. destruct (nth_error o1 n) as [u|] eqn:N1; destruct (nth_error o2 n) as [v|] eqn:N2; try reflexivity.
    2: { apply nth_error_None in N2. assert (n < length o1)%nat by (apply nth_error_Some; congruence). lia. }
    2: { apply nth_error_None in N1. assert (n < length o2)%nat by (apply nth_error_Some; congruence). lia. }
    f_equal. rewrite Forall_forall in K1, K2. destruct (K1 u (nth_error_In _ _ N1)) as (Au & Wu). destruct (K2 v (nth_error_In _ _ N2)) as (Av & Wv).
    apply (tree_eq p); auto. intros pos.
    assert (Hn : (n < length H)%nat) by (rewrite <- L1; apply nth_error_Some; congruence).
    destruct (elt p pos) as [x|] eqn:Ep.
    - assert (Hg : forall i, exists r, (i <= n)%nat -> helt H i pos = Some (Fin r)).
      { intros i. destruct (le_dec i n) as [Hi|Hi]; [|exists 0; lia]. destruct (nth_error H i) as [h|] eqn:Nh; [|apply nth_error_None in Nh; lia].
        unfold finite_hist, hist_ok in HF, HH. rewrite Forall_forall in HF, HH. destruct (HF h (nth_error_In _ _ Nh)) as (Fg & _). destruct (HH h (nth_error_In _ _ Nh)) as ((Ag & Wg) & _).
        destruct (elt (fst h) pos) as [y|] eqn:Ey; [|exfalso; apply (elt_like (fst h) p pos); auto; congruence]. pose proof (elt_vals _ _ _ Ey) as Hy. unfold finite_tree in Fg. rewrite Forall_forall in Fg. destruct (Fg y Hy) as (r & ->).
        exists r. intros _. unfold helt. rewrite Nh. exact Ey. }
      assert (Hq : forall i, exists r, (i <= n)%nat -> np = false -> hpelt H i pos = Some (Fin r)).
      { intros i. destruct (le_dec i n) as [Hi|Hi]; [|exists 0; lia]. destruct np; [exists 0; discriminate|]. destruct (nth_error H i) as [h|] eqn:Nh; [|apply nth_error_None in Nh; lia].
        unfold finite_hist, hist_ok in HF, HH. rewrite Forall_forall in HF, HH. destruct (HF h (nth_error_In _ _ Nh)) as (_ & Fq). destruct (HH h (nth_error_In _ _ Nh)) as (_ & Hq'). destruct (Hq' eq_refl) as (q & Eq & (Aq & Wq)). specialize (Fq eq_refl q Eq).
        destruct (elt q pos) as [y|] eqn:Ey; [|exfalso; apply (elt_like q p pos); auto; congruence]. pose proof (elt_vals _ _ _ Ey) as Hy. unfold finite_tree in Fq. rewrite Forall_forall in Fq. destruct (Fq y Hy) as (r & ->).
        exists r. intros _ _. unfold hpelt. rewrite Nh. destruct h as [h1 h2]. cbn in Eq. subst h2. exact Ey. }
      pose (g := fun i => match helt H i pos with Some z => xval z | None => 0 end). pose (q := fun i => match hpelt H i pos with Some z => xval z | None => 0 end).
      assert (Gg : forall i, (i <= n)%nat -> helt H i pos = Some (Fin (g i))) by (intros i Hi; destruct (Hg i) as (r & Er); unfold g; rewrite (Er Hi); reflexivity).
      assert (Gq : forall i, (i <= n)%nat -> np = false -> hpelt H i pos = Some (Fin (q i))) by (intros i Hi Hnp; destruct (Hq i) as (r & Er); unfold q; rewrite (Er Hi Hnp); reflexivity).
      specialize (V n pos g q Hn (fun i Hi => Gg i Hi) (fun Hnp i Hi => Gq i Hi Hnp)). unfold oelt in V. rewrite N1, N2 in V. exact V.
    - assert (Eu : elt u pos = None) by (destruct (elt u pos) eqn:E; [exfalso; apply (elt_like p u pos); auto; congruence|reflexivity]).
      assert (Evn : elt v pos = None) by (destruct (elt v pos) eqn:E; [exfalso; apply (elt_like p v pos); auto; congruence|reflexivity]). exact (eq_trans Eu (eq_sym Evn)).
  Qed.
  Lemma emits_same np T1 T2 (f1 f2 : (nat -> R) -> (nat -> R) -> nat -> R) :
    @emits P np T1 (fun g q n y => y = Fin (f1 g q n)) -> @emits P np T2 (fun g q n y => y = Fin (f2 g q n)) -> (forall g q n, f1 g q n = f2 g q n) -> @interchangeable P np T1 T2.
  Proof.
    intros E1 E2 Hf p H Wp HH HF. destruct (E1 p H Wp HH) as (o1 & T1' & L1 & K1 & V1). destruct (E2 p H Wp HH) as (o2 & T2' & L2 & K2 & V2).
    exists o1. split; [exact T1'|]. enough (o1 = o2) by (subst o2; exact T2').
    apply (outs_eq np p H); auto. intros n pos g q Hn Hg Hq. destruct (V1 n pos g q Hn Hg Hq) as (y1 & Y1 & ->). destruct (V2 n pos g q Hn Hg Hq) as (y2 & Y2 & ->). now rewrite Y1, Y2, Hf.
  Qed.
End Same.

Section Forms.
  Context {P : Platform}.
  Notation xr := (XROps P).
  (** Two transformations one after the other. *)
  Lemma emits_two np T1 T2 (f1 f2 : (nat -> R) -> (nat -> R) -> nat -> R) : @emits P np T1 (fun g q n y => y = Fin (f1 g q n)) -> @emits P np T2 (fun g q n y => y = Fin (f2 g q n)) ->
    @emits P np (chain_gt [T1; T2]) (fun g q n y => y = Fin (f2 (f1 g q) q n)).
  Proof.
    intros E1 E2. eapply emits_impl; [|apply (emits_cons np T1 [T2] _ _ E1 (emits_one np T2 _ E2))]. cbn beta. intros g q n y Hy. apply (Hy (f1 g q)). intros i _ z ->. reflexivity.
  Qed.
  Lemma id_emits : @emits P true (@identity xr) (fun g _ n y => y = Fin (g n)).
  Proof. eapply refines_emits; [apply refines_identity|]. reflexivity. Qed.
  Lemma scale_emits c : @emits P true (@scale xr (Fin c)) (fun g _ n y => y = Fin (c * g n)).
  Proof. eapply refines_emits; [apply refines_scale|]. reflexivity. Qed.
  Lemma sched_emits (f : Z -> R) : @emits P true (@scale_by_schedule xr (fun c => Fin (f c))) (fun g _ n y => y = Fin (f (count_at n) * g n)).
  Proof. eapply refines_emits; [apply refines_schedule|]. reflexivity. Qed.
  Lemma clip_emits c : 0 <= c -> @emits P true (@clip xr (Fin c)) (fun g _ n y => y = Fin (Rmax (- c) (Rmin c (g n)))).
  Proof.
    intros Hc. eapply refines_emits; [apply refines_clip|]. intros d x g q n. cbn [mout m_fun m_step fst]. rewrite clip_elt_range by exact Hc. f_equal.
    destruct (Rle_dec (g n) (- c)); [rewrite Rmin_right by lra; rewrite Rmax_left by lra; reflexivity|]. destruct (Rle_dec c (g n)); [rewrite Rmin_left, Rmax_right by lra; reflexivity|]. rewrite Rmin_right, Rmax_right by lra. reflexivity.
  Qed.
  Lemma trace_emits b nest : @emits P true (@trace xr (Fin b) nest None) (fun g _ n y => y = Fin (if nest then g n + b * wsum b g n else wsum b g n)).
  Proof. eapply refines_emits; [apply refines_trace|]. intros. apply trace_out. Qed.
  Lemma ema_emits b db : 0 <= b < 1 -> @emits P true (@ema xr (Fin b) db None) (fun g _ n y => y = Fin (if db then ema_of b 0 g n / (1 - b ^ satcount (S n)) else g n)).
  Proof. intros Hb. eapply refines_emits; [apply refines_ema|]. intros. now apply ema_out. Qed.
  (** MultiSteps around an optimiser refined by a machine with a closed form. *)
  Definition rblock (um : bool) (k : nat) (g : nat -> R) (j : nat) : R := let s := rsumn (fun i => g (j * k + i)%nat) k in if um then s / INR k else s.
  Lemma block_acc_exact d k g j r : @block_acc xr d k (fun i => Fin (g i)) j r = Fin (rsumn (fun i => g (j * k + i)%nat) r).
  Proof. induction r as [|r IH]; cbn [block_acc rsumn]; [cbn [fcast XROps]; apply f0|]. rewrite IH. cbn [fadd XROps]. rewrite xadd_fin. f_equal. ring. Qed.
  Lemma block_grad_exact um d k g j : (1 <= k)%nat -> @block_grad xr um d k (fun i => Fin (g i)) j = Fin (rblock um k g j).
  Proof.
    intros Hk. unfold block_grad, rblock. cbv zeta. rewrite block_acc_exact. destruct um; [|reflexivity]. assert (0 < INR k) by (apply lt_0_INR; lia).
    cbn [fcast fdiv fofZ flit XROps]. unfold fofZ. cbn [flit XROps]. assert (E : Q2R (inject_Z (Z.of_nat k)) = INR k) by (unfold Q2R, inject_Z; cbn [Qnum Qden]; rewrite INR_IZR_INZ; lra). rewrite E, xdiv_fin by lra. reflexivity.
  Qed.
  Lemma multi_emits T M (f : (nat -> R) -> nat -> R) k um : (1 <= k)%nat -> (Z.of_nat k < 2 ^ 31)%Z -> @refines xr true T M ->
    (forall d x g g' q n, (forall i, g i = Fin (g' i)) -> @mout xr M d x g q n = Fin (f g' n)) ->
    @emits P true (multi_steps T (fun _ => Z.of_nat k) um) (fun g _ n y => y = Fin (if (S n mod k =? 0)%nat then f (rblock um k g) (n / k)%nat else 0)).
  Proof.
    intros Hk Hk2 HR Hf p H Wp HH. destruct (@multi_elementwise xr T M k um p H Hk Hk2 HR Wp HH) as (outs & Ht & Hl & Ho & He). exists outs. split; [exact Ht|]. split; [exact Hl|]. split; [exact Ho|].
    intros n pos g q Hn Hg _. destruct (He n pos (fun i => Fin (g i)) Hn Hg) as (x & _ & E). eexists. split; [exact E|]. destruct (S n mod k =? 0)%nat; [|cbn [fcast XROps]; apply f0]. apply Hf. intros i. now apply block_grad_exact.
  Qed.
End Forms.

(** ** Algebra *)
Ltac split_le := repeat match goal with |- context [Rle_dec ?u ?v] => lazymatch u with context [Rle_dec _ _] => fail | _ => lazymatch v with context [Rle_dec _ _] => fail | _ => destruct (Rle_dec u v) end end end.
Lemma wsum0 g n : wsum 0 g n = g n.
Proof. destruct n as [|n]; [apply wsum_0|]. rewrite wsum_S. ring. Qed.
Lemma zero_pow n : (0 < n)%nat -> 0 ^ n = 0.
Proof. destruct n; [lia|]. intros _. cbn. ring. Qed.
Lemma wsum_ext b f g n : (forall i, (i <= n)%nat -> f i = g i) -> wsum b f n = wsum b g n.
Proof. induction n as [|n IH]; intros H; [rewrite !wsum_0; now apply H|]. rewrite !wsum_S, IH, H by (try lia; intros; apply H; lia). reflexivity. Qed.
Lemma ema_of_scal b c f n : ema_of b 0 (fun i => c * f i) n = c * ema_of b 0 f n.
Proof. unfold ema_of. rewrite wsum_scal. ring. Qed.
Lemma clip_clip a b x : 0 <= a -> 0 <= b -> Rmax (- b) (Rmin b (Rmax (- a) (Rmin a x))) = Rmax (- Rmin a b) (Rmin (Rmin a b) x).
Proof. intros Ha Hb. unfold Rmax, Rmin. split_le; lra. Qed.

(*@ C80_neutral : in exact arithmetic, from any parameters and on every finite history of any length: scale(1), trace(0) with or without nesterov, ema(0) with debias, ema of any decay without debias, apply_every(1), a schedule constantly 1 and add_decayed_weights(0) (given params) all emit exactly what identity does. *)
Lemma neutral_elements : forall `{P : Platform},
  interchangeable true (scale (Fin 1)) identity /\
  (forall nest, interchangeable true (trace (Fin 0) nest None) identity) /\
  interchangeable true (ema (Fin 0) true None) identity /\
  (forall b, 0 <= b < 1 -> interchangeable true (ema (Fin b) false None) identity) /\
  interchangeable true (apply_every 1) identity /\
  interchangeable true (scale_by_schedule (fun _ => Fin 1)) identity /\
  interchangeable false (add_decayed_weights (Fin 0)) identity.
Proof.
  intros P. split; [|split; [|split; [|split; [|split; [|split]]]]].
  - eapply emits_same; [apply scale_emits|apply id_emits|]. intros; cbn beta; ring.
  - intros nest. eapply emits_same; [apply trace_emits|apply id_emits|]. intros g q n. cbn beta. rewrite wsum0. destruct nest; ring.
  - eapply emits_same; [apply (ema_emits 0 true); lra|apply id_emits|]. intros g q n. cbn beta. unfold ema_of. rewrite wsum0, (zero_pow (satcount (S n))) by apply satcount_pos. field.
  - intros b Hb. eapply emits_same; [apply (ema_emits b false Hb)|apply id_emits|]. intros g q n. reflexivity.
  - eapply emits_same; [|apply id_emits|].
    + eapply emits_impl; [|apply (every_spec 1); lia]. intros g q n y (Hy & _). specialize (Hy (Nat.mod_1_r (S n))). cbn in Hy. rewrite Nat.sub_0_r, Nat.add_0_r in Hy. instantiate (1 := fun g _ n => g n). exact Hy.
    + reflexivity.
  - eapply emits_same; [apply (sched_emits (fun _ => 1))|apply id_emits|]. intros; cbn beta; ring.
  - eapply emits_same; [apply wd_emits|apply emits_weaken, id_emits|]. intros; cbn beta; ring.
Qed.
(*@ C80_fusion : two scales are one by the product, two clips one at the smaller bound, two weight decays one by the sum, and a constant schedule is a scale. *)
Lemma fusion_laws : forall `{P : Platform} (a b : R),
  interchangeable true (chain_gt [scale (Fin a); scale (Fin b)]) (scale (Fin (a * b))) /\
  (0 <= a -> 0 <= b -> interchangeable true (chain_gt [clip (Fin a); clip (Fin b)]) (clip (Fin (Rmin a b)))) /\
  interchangeable false (chain_gt [add_decayed_weights (Fin a); add_decayed_weights (Fin b)]) (add_decayed_weights (Fin (a + b))) /\
  interchangeable true (scale_by_schedule (fun _ => Fin a)) (scale (Fin a)).
Proof.
  intros P a b. split; [|split; [|split]].
  - eapply emits_same; [apply (emits_two _ _ _ _ _ (scale_emits a) (scale_emits b))|apply scale_emits|]. intros; cbn beta; ring.
  - intros Ha Hb. eapply emits_same; [apply (emits_two _ _ _ _ _ (clip_emits a Ha) (clip_emits b Hb))|apply clip_emits; now apply Rmin_glb|]. intros; cbn beta. now apply clip_clip.
  - eapply emits_same; [apply (emits_two _ _ _ _ _ (wd_emits a) (wd_emits b))|apply wd_emits|]. intros; cbn beta; ring.
  - eapply emits_same; [apply (sched_emits (fun _ => a))|apply scale_emits|]. intros; reflexivity.
Qed.
(*@ C80_commute : a fixed scale can be moved across trace (with or without nesterov) and ema (with or without debias), and across clip when the bound is scaled too; two schedules commute. *)
Lemma commuting_laws : forall `{P : Platform} (c b : R) (f h : Z -> R),
  (forall nest, interchangeable true (chain_gt [trace (Fin b) nest None; scale (Fin c)]) (chain_gt [scale (Fin c); trace (Fin b) nest None])) /\
  (forall db, 0 <= b < 1 -> interchangeable true (chain_gt [ema (Fin b) db None; scale (Fin c)]) (chain_gt [scale (Fin c); ema (Fin b) db None])) /\
  (0 <= b -> 0 < c -> interchangeable true (chain_gt [clip (Fin b); scale (Fin c)]) (chain_gt [scale (Fin c); clip (Fin (c * b))])) /\
  interchangeable true (chain_gt [scale_by_schedule (fun i => Fin (f i)); scale_by_schedule (fun i => Fin (h i))])
    (chain_gt [scale_by_schedule (fun i => Fin (h i)); scale_by_schedule (fun i => Fin (f i))]).
Proof.
  intros P c b f h. split; [|split; [|split]].
  - intros nest. eapply emits_same; [apply (emits_two _ _ _ _ _ (trace_emits b nest) (scale_emits c))|apply (emits_two _ _ _ _ _ (scale_emits c) (trace_emits b nest))|]. intros g q n; cbn beta. rewrite wsum_scal. destruct nest; ring.
  - intros db Hb. eapply emits_same; [apply (emits_two _ _ _ _ _ (ema_emits b db Hb) (scale_emits c))|apply (emits_two _ _ _ _ _ (scale_emits c) (ema_emits b db Hb))|]. intros g q n; cbn beta. rewrite ema_of_scal. destruct db; [|ring]. unfold Rdiv. ring.
  - intros Hb Hc. assert (Hcb : 0 <= c * b) by nra. eapply emits_same; [apply (emits_two _ _ _ _ _ (clip_emits b Hb) (scale_emits c))|apply (emits_two _ _ _ _ _ (scale_emits c) (clip_emits (c * b) Hcb))|]. intros g q n; cbn beta.
    unfold Rmax, Rmin. split_le; nra.
  - eapply emits_same; [apply (emits_two _ _ _ _ _ (sched_emits f) (sched_emits h))|apply (emits_two _ _ _ _ _ (sched_emits h) (sched_emits f))|]. intros g q n; cbn beta. ring.
Qed.
(*@ C80_aliases : for every fixed or scheduled learning rate and hyper-parameters in range, adamw with no weight decay is adam and sgd with momentum 0 (nesterov or not) is sgd without momentum; and with a fixed learning rate rmsprop's momentum may be taken before or after the learning rate. *)
Lemma alias_equivalences : forall `{P : Platform} (L : lrate) (lr : Z -> R) (b1 b2 eps er v0 x : R) (centered nest : bool) (m : option R),
  (forall c, rate L c = Fin (lr c)) -> 0 <= b1 < 1 -> 0 <= b2 < 1 -> 0 < eps -> 0 <= er -> 0 <= v0 ->
  (exists T1 T2, adamw L (Fin b1) (Fin b2) (Fin eps) (Fin er) (Fin 0) = Ok T1 /\ adam L (Fin b1) (Fin b2) (Fin eps) (Fin er) = Ok T2 /\ interchangeable false T1 T2) /\
  (exists T1 T2, sgd L (Some (Fin 0)) nest = Ok T1 /\ sgd L None false = Ok T2 /\ interchangeable true T1 T2) /\
  (exists T, rmsprop (LConst (Fin x)) (Fin b2) (Fin eps) (Fin v0) centered (option_map Fin m) nest = Ok T /\
    interchangeable true T (chain_gt [(if centered then scale_by_stddev (Fin b2) (Fin eps) (Fin v0) else scale_by_rms (Fin b2) (Fin eps) (Fin v0)); match m with Some b => trace (Fin b) nest None | None => identity end; scale (Fin (- x))])).
Proof.
  intros P L lr b1 b2 eps er v0 x centered nest m HL H1 H2 He Hr Hv. split; [|split].
  - destruct (adamw_closed_form L lr b1 b2 eps er 0 HL H1 H2 He Hr) as (T1 & E1 & M1). destruct (alias_closed_forms L lr b1 b2 eps er 5 0 HL H1 H2 He Hr ltac:(lra) ltac:(lra)) as ((T2 & E2 & M2) & _).
    exists T1, T2. split; [exact E1|]. split; [exact E2|]. eapply emits_same; [exact M1|apply emits_weaken; exact M2|]. intros; cbn beta; ring.
  - destruct (sgd_emits L lr (Some 0) nest HL) as (T1 & E1 & M1). destruct (sgd_emits L lr None false HL) as (T2 & E2 & M2).
    exists T1, T2. split; [exact E1|]. split; [exact E2|]. eapply emits_same; [exact M1|exact M2|]. intros g q n. cbn beta. unfold momentum_of. cbv zeta. fold (wsum 0 g n). rewrite wsum0. destruct nest; ring.
  - destruct (rmsprop_closed_form (@LConst (XROps P) (Fin x)) (fun _ => x) b2 eps v0 centered m nest ltac:(reflexivity) H2 He Hv) as (T & E & M). exists T. split; [exact E|].
    assert (Em : emits true (match m with Some b => trace (Fin b) nest None | None => identity end) (fun g _ n y => y = Fin (momentum_of m nest g n))).
    { destruct m as [b|]; [apply trace_emits|apply id_emits]. }
    eapply emits_same; [exact M| |].
    + eapply emits_impl; [|apply (emits_cons true _ _ _ _ (rms_dir_emits b2 eps v0 centered H2 He Hv) (emits_two _ _ _ _ _ Em (scale_emits (- x))))]. cbn beta. intros g q n y Hy.
      specialize (Hy (rms_dir b2 eps v0 centered g) ltac:(intros i _ z ->; reflexivity)). instantiate (1 := fun g _ n => - x * momentum_of m nest (rms_dir b2 eps v0 centered g) n). exact Hy.
    + intros g q n. cbn beta. destruct m as [b|]; unfold momentum_of; cbv zeta; [|reflexivity]. pose proof (wsum_scal b (- x) (rms_dir b2 eps v0 centered g) n) as W. unfold wsum in W. rewrite W. destruct nest; ring.
Qed.

Lemma rsumn_sum f m : rsumn f (S m) = sum_f_R0 f m.
Proof. induction m as [|m IH]; [cbn; ring|]. change (rsumn f (S (S m))) with (rsumn f (S m) + f (S m)). rewrite IH. reflexivity. Qed.
Lemma every_emits `{P : Platform} k : (1 <= k)%nat -> (Z.of_nat k < 2 ^ 31)%Z -> emits true (apply_every (Z.of_nat k)) (fun g _ n y => y = Fin (if (S n mod k =? 0)%nat then rblock false k g (n / k) else 0)).
Proof.
  intros Hk Hk2. eapply emits_impl; [|apply every_spec; lia]. cbn beta. intros g q n y (Y1 & Y2). destruct (Nat.eqb_spec (S n mod k) 0) as [E|E]; [|exact (Y2 E)]. rewrite (Y1 E). f_equal. unfold rblock. cbv zeta.
  destruct k as [|m]; [lia|]. rewrite rsumn_sum. replace (S m - 1)%nat with m by lia. apply sum_eq. intros i _. f_equal.
  pose proof (Nat.div_mod (S n) (S m) ltac:(lia)) as D. rewrite E, Nat.add_0_r in D. destruct (S n / S m)%nat as [|z] eqn:Ez; [lia|].
  assert (Eq : (n / S m = z)%nat) by (symmetry; apply (Nat.div_unique _ _ _ m); nia). rewrite Eq. nia.
Qed.
(*@ C80_accumulation : for every k from 1 to 2^31-1 accumulating with apply_every(k) and then applying a stateless rule (scale, or clip) is MultiSteps(rule, k) with sums, and dividing by k in between gives MultiSteps with means. *)
Lemma accumulation_equivalences : forall `{P : Platform} (k : nat) (c : R), (1 <= k)%nat -> (Z.of_nat k < 2 ^ 31)%Z ->
  interchangeable true (chain_gt [apply_every (Z.of_nat k); scale (Fin c)]) (multi_steps (scale (Fin c)) (fun _ => Z.of_nat k) false) /\
  interchangeable true (chain_gt [apply_every (Z.of_nat k); scale (Fin (c / INR k))]) (multi_steps (scale (Fin c)) (fun _ => Z.of_nat k) true) /\
  (0 <= c -> interchangeable true (chain_gt [apply_every (Z.of_nat k); clip (Fin c)]) (multi_steps (clip (Fin c)) (fun _ => Z.of_nat k) false)).
Proof.
  intros P k c Hk Hk2. pose proof (every_emits k Hk Hk2) as EE.
  assert (SC : forall um, emits true (multi_steps (scale (Fin c)) (fun _ => Z.of_nat k) um) (fun g _ n y => y = Fin (if (S n mod k =? 0)%nat then c * rblock um k g (n / k) else 0))).
  { intros um. eapply (multi_emits _ _ (fun g n => c * g n) k um Hk Hk2 (@refines_scale (XROps P) (Fin c))). intros d x g g' q n Hg. cbn [mout m_fun m_step fst snd]. rewrite Hg. reflexivity. }
  assert (Hn : 0 < INR k) by (apply lt_0_INR; lia). split; [|split].
  - eapply emits_same; [apply (emits_two _ _ _ _ _ EE (scale_emits c))|apply (SC false)|]. intros g q n. cbn beta. destruct (S n mod k =? 0)%nat; ring.
  - eapply emits_same; [apply (emits_two _ _ _ _ _ EE (scale_emits (c / INR k)))|apply (SC true)|]. intros g q n. cbn beta. destruct (S n mod k =? 0)%nat; [|ring]. unfold rblock. cbv zeta. field. lra.
  - intros Hc. eapply emits_same; [apply (emits_two _ _ _ _ _ EE (clip_emits c Hc))| |].
    + eapply (multi_emits _ _ (fun g n => Rmax (- c) (Rmin c (g n))) k false Hk Hk2 (@refines_clip (XROps P) (Fin c))). intros d x g g' q n Hg. cbn [mout m_fun m_step fst snd]. rewrite Hg.
      rewrite clip_elt_range by exact Hc. f_equal.
      destruct (Rle_dec (g' n) (- c)); [rewrite Rmin_right by lra; rewrite Rmax_left by lra; reflexivity|]. destruct (Rle_dec c (g' n)); [rewrite Rmin_left, Rmax_right by lra; reflexivity|]. rewrite Rmin_right, Rmax_right by lra. reflexivity.
    + intros g q n. cbn beta. destruct (S n mod k =? 0)%nat; [reflexivity|]. unfold Rmax, Rmin. split_le; lra.
Qed.
(*@ C80_every_step : MultiSteps with k = 1 (sum or mean) around any element-wise transformation that ignores params is that transformation. *)
Lemma multi_one : forall `{P : Platform} (T : GT) (M : machine) (use_mean : bool), refines true T M -> interchangeable true (multi_steps T (fun _ => 1%Z) use_mean) T.
Proof.
  intros P T M um HR p H Wp HH HF. destruct (@multi_elementwise (XROps P) T M 1 um p H (le_n _) ltac:(lia) HR Wp HH) as (o1 & T1 & L1 & K1 & V1). destruct (refines_trains true T M HR p H Wp HH) as (o2 & T2 & L2 & K2 & V2).
  exists o1. split; [exact T1|]. enough (o1 = o2) by (subst o2; exact T2). apply (outs_eq true p H); auto. intros n pos g q Hn Hg _.
  destruct (V1 n pos (fun i => Fin (g i)) Hn Hg) as (x & Ex & E1). destruct (V2 n pos (fun i => Fin (g i)) (fun _ => fzero) Hn Hg ltac:(discriminate)) as (x' & Ex' & E2).
  rewrite Ex in Ex'. injection Ex' as <-. etransitivity; [exact E1|]. symmetry. etransitivity; [exact E2|]. f_equal. rewrite Nat.mod_1_r, Nat.div_1_r. cbn [Nat.eqb].
  assert (B : forall i, @block_grad (XROps P) um (leafdt p pos) 1 (fun i => Fin (g i)) i = Fin (g i)).
  { intros i. rewrite block_grad_exact by lia. f_equal. unfold rblock. cbn [rsumn INR]. cbv zeta. rewrite Nat.mul_1_r, Nat.add_0_r. destruct um; [field|ring]. }
  unfold mout. rewrite B. f_equal. f_equal. apply mst_ext; intros; [now rewrite B|reflexivity].
Qed.
Lemma trains_fun `{O : Ops} T p H o1 o2 : trains T p H o1 -> trains T p H o2 -> o1 = o2.
Proof. intros (s & s' & Hi & Hr) (t & t' & Hi' & Hr'). rewrite Hi in Hi'. injection Hi' as <-. rewrite Hr in Hr'. now injection Hr'. Qed.
Lemma not_same `{P : Platform} T1 T2 (f1 f2 : (nat -> R) -> (nat -> R) -> nat -> R) (g : nat -> R) n :
  emits true T1 (fun g q n y => y = Fin (f1 g q n)) -> emits true T2 (fun g q n y => y = Fin (f2 g q n)) -> f1 g (fun _ => 1) n <> f2 g (fun _ => 1) n -> ~ interchangeable true T1 T2.
Proof.
  intros E1 E2 Hne HI. set (l := map (fun i => Fin (g i)) (seq 0 (S n))). pose proof (one_wf (Fin 1)) as W. pose proof (ones_ok true (Fin 1) l) as Hok.
  destruct (HI (one (Fin 1)) (ones_hist l) W Hok) as (outs & R1 & R2).
  { unfold finite_hist, ones_hist, l. rewrite map_map, Forall_map. apply Forall_forall. intros i _. cbn [fst snd]. split; [|discriminate]. repeat constructor. eexists; reflexivity. }
  assert (Hl : forall i, (i <= n)%nat -> helt (ones_hist l) i (0%nat, 0%nat) = Some (Fin (g i))).
  { intros i Hi. rewrite ones_elt. unfold l. rewrite nth_error_map. rewrite (nth_error_nth' _ 0%nat) by (rewrite seq_length; lia). rewrite seq_nth by lia. reflexivity. }
  assert (Hn : (n < length (ones_hist l))%nat) by (unfold ones_hist, l; rewrite !map_length, seq_length; lia).
  destruct (E1 _ _ W Hok) as (o1 & Q1 & _ & _ & V1). destruct (E2 _ _ W Hok) as (o2 & Q2 & _ & _ & V2). pose proof (trains_fun _ _ _ _ _ R1 Q1) as <-. pose proof (trains_fun _ _ _ _ _ R2 Q2) as <-.
  destruct (V1 n (0%nat, 0%nat) g (fun _ => 1) Hn Hl ltac:(discriminate)) as (y1 & Y1 & ->). destruct (V2 n (0%nat, 0%nat) g (fun _ => 1) Hn Hl ltac:(discriminate)) as (y2 & Y2 & ->).
  rewrite Y1 in Y2. injection Y2 as Y2. exact (Hne Y2).
Qed.
(*@ C80_not_interchangeable : and the side conditions matter: a schedule does not commute with momentum, clip does not commute with scale at the same bound, and apply_every before momentum is not MultiSteps around it (the zeros it emits decay the momentum). *)
Lemma order_matters : forall `{P : Platform},
  ~ interchangeable true (chain_gt [trace (Fin 1) false None; scale_by_schedule (fun c => Fin (IZR c))]) (chain_gt [scale_by_schedule (fun c => Fin (IZR c)); trace (Fin 1) false None]) /\
  ~ interchangeable true (chain_gt [clip (Fin 1); scale (Fin 2)]) (chain_gt [scale (Fin 2); clip (Fin 1)]) /\
  ~ interchangeable true (chain_gt [apply_every 2; trace (Fin 1) false None]) (multi_steps (trace (Fin 1) false None) (fun _ => 2%Z) false).
Proof.
  intros P. split; [|split].
  - eapply (not_same _ _ _ _ (fun _ => 1) 1); [apply (emits_two _ _ _ _ _ (trace_emits 1 false) (sched_emits IZR))|apply (emits_two _ _ _ _ _ (sched_emits IZR) (trace_emits 1 false))|].
    cbn beta iota. rewrite !wsum_S, !wsum_0. unfold count_at. rewrite !Z.min_l by lia. cbn. lra.
  - eapply (not_same _ _ _ _ (fun _ => 1) 0); [apply (emits_two _ _ _ _ _ (clip_emits 1 ltac:(lra)) (scale_emits 2))|apply (emits_two _ _ _ _ _ (scale_emits 2) (clip_emits 1 ltac:(lra)))|].
    cbn beta iota. unfold Rmax, Rmin. split_le; lra.
  - eapply (not_same _ _ _ _ (fun _ => 1) 2); [apply (emits_two _ _ _ _ _ (every_emits 2 ltac:(lia) ltac:(lia)) (trace_emits 1 false))| |].
    + eapply (multi_emits _ _ (fun g n => wsum 1 g n) 2 false ltac:(lia) ltac:(lia) (@refines_trace (XROps P) (Fin 1) false)). intros d x g g' q n Hg.
      rewrite <- (trace_out P 1 false d x g' q n). unfold mout. rewrite Hg. f_equal. f_equal. apply mst_ext; intros; [apply Hg|reflexivity].
    + cbn beta iota. rewrite !wsum_S, !wsum_0. cbn. lra.
Qed.
(*@ex C80_example *)
Lemma equiv_example : forall `{P : Platform}, trwf ex_p /\ hist_ok true ex_p ex_H /\ finite_hist true ex_H /\
  exists outs, trains (chain_gt [apply_every 3; scale (Fin 2)]) ex_p ex_H outs /\ trains (multi_steps (scale (Fin 2)) (fun _ => 3%Z) false) ex_p ex_H outs /\
    oelt outs 1 (0%nat, 1%nat) = Some (Fin 0) /\ oelt outs 2 (0%nat, 1%nat) = Some (Fin 12).
Proof.
  intros P. assert (HF : finite_hist true ex_H) by (repeat constructor; try discriminate; eexists; reflexivity).
  split; [apply ex_p_wf|]. split; [apply ex_H_ok|]. split; [exact HF|].
  destruct (accumulation_equivalences 3 2 ltac:(lia) ltac:(lia)) as (HI & _). destruct (HI ex_p ex_H ex_p_wf (ex_H_ok true) HF) as (outs & T1 & T2). exists outs. split; [exact T1|]. split; [exact T2|].
  destruct (emits_two _ _ _ _ _ (every_emits 3 ltac:(lia) ltac:(lia)) (scale_emits 2) ex_p ex_H ex_p_wf (ex_H_ok true)) as (o & To & _ & _ & V). pose proof (trains_fun _ _ _ _ _ T1 To) as <-.
  split.
  - destruct (V 1%nat (0%nat, 1%nat) (fun i => INR (S i)) (fun _ => 0) ltac:(cbn; lia) (fun i Hi => ex_H_elt i ltac:(lia)) ltac:(discriminate)) as (y & Ey & ->). rewrite Ey. cbn. do 2 f_equal. ring.
  - destruct (V 2%nat (0%nat, 1%nat) (fun i => INR (S i)) (fun _ => 0) ltac:(cbn; lia) (fun i Hi => ex_H_elt i ltac:(lia)) ltac:(discriminate)) as (y & Ey & ->). rewrite Ey. unfold rblock. cbn. do 2 f_equal. ring.
Qed.
