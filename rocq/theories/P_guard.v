(** Guarded training in IEEE-754 arithmetic: zero_nans and clip keep the parameters finite for ever. *)
From Verif Require Export P_pipe P_ieee9.
From Coq Require Import List Psatz Bool.
From Flocq Require Import Core.Core IEEE754.BinarySingleNaN.
Import ListNotations.
Open Scope R_scope.
#[local] Existing Instance FlOps.
(*@header
From Flocq Require Import Core.Core IEEE754.BinarySingleNaN.
From Coq Require Import List.
Import ListNotations.
Open Scope R_scope.
#[local] Existing Instance FlOps.
*)
Local Notation fe d := (SpecFloat.fexp (fprec d) (femax d)).
Local Notation emin d := (SpecFloat.emin (fprec d) (femax d)).

(** ** The training loop, for any arithmetic *)
Section Loop.
  Context `{O : Ops}.
  Lemma loop_inv T p (I G U : tree tensor -> Prop) grad :
    (forall H, Forall (fun h => like p (fst h) /\ G (fst h) /\ exists q, snd h = Some q /\ like p q /\ I q) H ->
       exists outs, trains T p H outs /\ length outs = length H /\ Forall (fun u => like p u /\ U u) outs) ->
    (forall q u, like p q -> I q -> like p u -> U u -> exists q', apply_updates q u = Ok q' /\ like p q' /\ I q') ->
    (forall i q, like p q -> like p (grad i q) /\ G (grad i q)) -> trwf p -> I p ->
    forall n, exists q s, fit T grad n p = Ok (q, s) /\ like p q /\ I q.
  Proof.
    intros HT HA HG Wp Ip n.
    enough (exists q s H s0 outs, fit T grad n p = Ok (q, s) /\ like p q /\ I q /\ init T p = Ok s0 /\ run T s0 H = Ok (outs, s) /\
              Forall (fun h => like p (fst h) /\ G (fst h) /\ exists q, snd h = Some q /\ like p q /\ I q) H) as (q & s & H & s0 & outs & E & L & Iq & _) by eauto.
    induction n as [|n (q & s & H & s0 & outs & E & L & Iq & Ei & Er & HH)].
    - destruct (HT [] (Forall_nil _)) as (outs & (s0 & s1 & Ei & Er) & _). exists p, s0, [], s0, []. cbn [fit]. rewrite Ei. cbn [rbind]. split; [reflexivity|]. split; [split; [reflexivity|exact Wp]|]. split; [exact Ip|]. split; [reflexivity|]. split; [reflexivity|constructor].
    - destruct (HG n q L) as (Lg & Gg). assert (HH' : Forall (fun h => like p (fst h) /\ G (fst h) /\ exists q, snd h = Some q /\ like p q /\ I q) (H ++ [(grad n q, Some q)])).
      { apply Forall_app. split; [exact HH|]. constructor; [|constructor]. cbn [fst snd]. split; [exact Lg|]. split; [exact Gg|]. eauto. }
      destruct (HT _ HH') as (outs' & (t0 & t1 & Ei' & Er') & Hl & Ho). rewrite Ei in Ei'. injection Ei' as <-.
      rewrite State.run_app, Er in Er'. cbn [rbind run] in Er'. destruct (update T (grad n q) s (Some q)) as [[u s']|e] eqn:Eu; cbn [rbind] in Er'; [|discriminate]. injection Er' as <- <-.
      apply Forall_app in Ho as (_ & Ho). inversion Ho as [|? ? (Lu & Uu) _]; subst. destruct (HA q u L Iq Lu Uu) as (q' & Eq & Lq & Iq').
      exists q', s', (H ++ [(grad n q, Some q)]), s0, (outs ++ [u]). cbn [fit]. rewrite E. cbn [rbind]. rewrite Eu. cbn [rbind]. rewrite Eq. cbn [rbind]. split; [reflexivity|]. split; [exact Lq|]. split; [exact Iq'|]. split; [exact Ei|]. split; [|exact HH'].
      rewrite State.run_app, Er. cbn [rbind run]. rewrite Eu. reflexivity.
  Qed.
End Loop.

(** ** What a stage of the pipeline does to the range of the elements *)
(** [maps T p A B]: on gradients whose elements satisfy [A], all updates of [T] have the signature of [p] and their elements satisfy [B]. *)
Definition maps `{O : Ops} (T : GT) (p : tree tensor) (A B : fdt -> F -> Prop) : Prop :=
  forall H, Forall (fun h => (like p (fst h) /\ forall pos x, elt (fst h) pos = Some x -> A (leafdt p pos) x) /\ exists q, snd h = Some q /\ like p q) H ->
  exists outs, trains T p H outs /\ length outs = length H /\ Forall (fun u => like p u /\ forall pos x, elt u pos = Some x -> B (leafdt p pos) x) outs.
Lemma maps_nil `{O : Ops} p A : maps (chain_gt []) p A A.
Proof.
  intros H HH. exists (map fst H). split; [now apply empty_chain_trains|]. split; [apply map_length|]. apply Forall_map. eapply Forall_impl; [|exact HH]. intros h (Hh & _). exact Hh.
Qed.
Lemma maps_cons `{O : Ops} t ts p A B C : maps t p A B -> maps (chain_gt ts) p B C -> maps (chain_gt (t :: ts)) p A C.
Proof.
  intros H1 H2 H HH. destruct (H1 H HH) as (mid & Ht & Hl & Ho). destruct (H2 (feed mid H)) as (outs & Ht2 & Hl2 & Ho2).
  - clear - HH Hl Ho. revert mid Hl Ho. induction HH as [|h H (_ & Hh) HH IH]; intros [|m mid] Hl Ho; cbn in *; try discriminate; [constructor|]. inversion Ho; subst. constructor; [cbn; auto|]. apply IH; auto.
  - exists outs. split; [apply chain_trains; eauto|]. split; [|exact Ho2]. rewrite Hl2. unfold feed. rewrite combine_length, map_length. lia.
Qed.
(** A rule on each update tree separately. *)
Lemma maps_trees `{O : Ops} T p (A B : fdt -> F -> Prop) (f : nat -> fdt -> F -> F) : (forall H, trains T p H (map (fun nx => emapt (f (fst nx)) (snd nx)) (combine (seq 0 (length H)) (map fst H)))) ->
  (forall n d x, A d x -> B d (f n d x)) -> maps T p A B.
Proof.
  intros HT HF H HH. eexists. split; [apply HT|]. split; [rewrite map_length, combine_length, seq_length, map_length; lia|].
  apply Forall_map. apply Forall_forall. intros [n u] Hin. cbn [fst snd]. apply in_combine_r in Hin. apply in_map_iff in Hin as (h & <- & Hin). rewrite Forall_forall in HH. destruct (HH h Hin) as (((Ea & W) & HA) & _).
  split; [split; [now rewrite emapt_avals|now apply emapt_wf]|]. intros pos x. rewrite elt_emapt. destruct (elt (fst h) pos) as [y|] eqn:E; cbn [option_map]; [|discriminate]. intros [= <-]. rewrite (leafdt_avals (fst h) p pos Ea). apply HF. now apply HA.
Qed.
Lemma combine_seq_map {A B C} (f : B -> C) (g : A -> B) (l : list A) k : map (fun nx => f (snd nx)) (combine (seq k (length l)) (map g l)) = map (fun a => f (g a)) l.
Proof. revert k. induction l as [|a l IH]; intros k; cbn; [reflexivity|]. now rewrite IH. Qed.
Lemma maps_zero_nans `{O : Ops} p (A B : fdt -> F -> Prop) : (forall d x, A d x -> B d (if fisnan x then fcast d fzero else x)) -> maps zero_nans p A B.
Proof.
  intros HF. eapply (maps_trees _ _ _ _ (fun _ d x => if fisnan x then fcast d fzero else x)); [|auto]. intros H.
  rewrite (combine_seq_map (emapt (fun d x => if fisnan x then fcast d fzero else x)) fst H 0).
  eexists. assert (E : forall s, exists s1, run zero_nans s H = Ok (map (fun h => emapt (fun d x => if fisnan x then fcast d fzero else x) (fst h)) H, s1)).
  { induction H as [|[u par] H IH]; intros s; [eexists; reflexivity|]. cbn [run update zero_nans rbind map fst]. edestruct IH as (s1 & E). rewrite E. cbn [rbind]. eexists. reflexivity. }
  edestruct E as (s1 & E1). exists s1. split; [reflexivity|exact E1].
Qed.
Lemma maps_clip `{O : Ops} p c (A B : fdt -> F -> Prop) : (forall d x, A d x -> B d (clip_elt c d x)) -> maps (clip c) p A B.
Proof.
  intros HF. eapply (maps_trees _ _ _ _ (fun _ d x => clip_elt c d x)); [|auto]. intros H.
  rewrite (combine_seq_map (emapt (fun d x => clip_elt c d x)) fst H 0).
  exists (SNode NEmpty []), (SNode NEmpty []). split; [reflexivity|]. induction H as [|[u par] H IH]; [reflexivity|]. cbn [run update clip stateless rbind map fst] in *. rewrite IH. reflexivity.
Qed.
Lemma maps_lr `{O : Ops} p L (A B : fdt -> F -> Prop) : (forall n d x, A d x -> B d (fmul d (fcast d (fneg (rate L (count_at n)))) x)) -> maps (scale_by_learning_rate L) p A B.
Proof.
  intros HF. eapply (maps_trees _ _ _ _ (fun n d x => fmul d (fcast d (fneg (rate L (count_at n)))) x)); [|auto]. intros H.
  apply lr_trains. unfold times_rate. now rewrite map_length.
Qed.
Lemma maps_femits `{L : Libm} T p Rel (A B : fdt -> fl -> Prop) : trwf p -> @femits L true T Rel -> (forall d x, A d x -> in_format d x) ->
  (forall d g q n y, (forall i, (i <= n)%nat -> A d (g i)) -> Rel d g q n y -> B d y) -> maps T p A B.
Proof.
  intros Wp HT HA HB H HH. destruct (HT p H Wp) as (outs & Ht & Hl & Ho & He).
  { eapply Forall_impl; [|exact HH]. intros h ((Hh & _) & _). split; [exact Hh|discriminate]. }
  exists outs. split; [exact Ht|]. split; [exact Hl|]. apply Forall_forall. intros u Hu. split; [exact (proj1 (Forall_forall _ _) Ho u Hu)|]. intros pos y Ey.
  apply In_nth_error in Hu as (n & En). assert (Hn : (n < length H)%nat) by (rewrite <- Hl; apply nth_error_Some; congruence).
  assert (Hg : forall i, (i <= n)%nat -> exists x, helt H i pos = Some x /\ A (leafdt p pos) x).
  { intros i Hi. unfold helt. destruct (nth_error H i) as [h|] eqn:Eh; [|apply nth_error_None in Eh; lia]. destruct (proj1 (Forall_forall _ _) HH h (nth_error_In _ _ Eh)) as (((Ea & W) & Hx) & _).
    destruct (elt (fst h) pos) as [x|] eqn:Ex; [exists x; split; [reflexivity|now apply Hx]|]. exfalso. destruct (proj1 (Forall_forall _ _) Ho u (nth_error_In _ _ En)) as (Ea' & W').
    assert (N : elt u pos <> None) by (intros K; pose proof (eq_trans (eq_sym Ey) K); discriminate). apply (elt_like (fst h) u pos) in N; auto; congruence. }
  set (g := fun i => match helt H i pos with Some x => x | None => Na end).
  assert (Hgg : forall i, (i <= n)%nat -> helt H i pos = Some (g i) /\ A (leafdt p pos) (g i)) by (intros i Hi; destruct (Hg i Hi) as (x & Ex & Hx); unfold g; rewrite Ex; auto).
  destruct (He n pos g (fun _ => Na) Hn) as (z & Ez & Hz); [intros i Hi; destruct (Hgg i Hi); auto|discriminate|].
  unfold oelt in Ez. rewrite En in Ez. assert (z = y) as -> by congruence. apply (HB _ g (fun _ => Na) n y); [intros i Hi; now apply Hgg|exact Hz].
Qed.

(** ** The parameters under bounded updates: rounding stops them *)
Lemma bounded_add d e x u : in_format d x -> ffin x = true -> ffin u = true -> Rabs (fval u) <= bpow radix2 e -> (emin d <= e)%Z -> (fprec d + 2 + e < femax d)%Z ->
  let z := add_ (fprec d) (femax d) x u in ffin z = true /\ Rabs (fval z) <= Rmax (Rabs (fval x)) (bpow radix2 (fprec d + 2 + e)).
Proof.
  intros Fx fx fu Hu He1 He2. cbn zeta. destruct (fin_fmt d x Fx) as (Gx & Tx). rewrite add_fin by assumption.
  assert (Bd : Rabs (rnd d (fval x + fval u)) <= Rmax (Rabs (fval x)) (bpow radix2 (fprec d + 2 + e))).
  { pose proof (fprec_gt d) as Pp. unfold Prec_gt_0 in Pp. destruct (Rle_lt_dec (bpow radix2 (fprec d + 2 + e)) (Rabs (fval x))) as [Hb|Hb].
    - rewrite stag; [apply Rmax_l|exact Gx|]. eapply Rle_trans; [exact Hu|]. replace e with ((- fprec d - 2) + (fprec d + 2 + e))%Z at 1 by lia. rewrite bpow_plus. apply Rmult_le_compat_l; [apply bpow_ge_0|exact Hb].
    - eapply Rle_trans; [|apply Rmax_r]. rewrite rnd_abs. eapply Rle_trans; [apply rnd_le; apply Rabs_triang|].
      eapply Rle_trans; [apply rnd_le; apply Rplus_le_compat; [left; exact Hb|exact Hu]|]. right. apply stag; [apply fmt_bpow; lia|].
      rewrite (Rabs_pos_eq (bpow radix2 e)), (Rabs_pos_eq (bpow radix2 (fprec d + 2 + e))) by apply bpow_ge_0. rewrite <- bpow_plus. apply bpow_le. lia. }
  match goal with |- context [rto d ?s ?v] => destruct (rto_cases d s v) as [(_ & ->)|(Hb & ->)] end; [rewrite fmk_fin, fmk_val; auto|].
  exfalso. assert (Rmax (Rabs (fval x)) (bpow radix2 (fprec d + 2 + e)) < top d); [|lra]. apply Rmax_lub_lt; [exact Tx|]. now apply bpow_lt.
Qed.

(** The gradients are arrays of the dtypes of the parameters; their values may be anything. *)
Definition any_gradients `{L : Libm} (p : tree tensor) (grad : nat -> tree tensor -> tree tensor) : Prop :=
  forall i q, like p q -> like p (grad i q) /\ forall pos x, elt (grad i q) pos = Some x -> in_format (leafdt p pos) x.
(** All parameters are finite members of their dtype. *)
Definition finite_params `{L : Libm} (p : tree tensor) : Prop := trwf p /\ forall pos x, elt p pos = Some x -> in_format (leafdt p pos) x /\ fisfinite x = true.
(** The leaves have the dtypes in [ds]. *)
Definition has_dtype `{O : Ops} (p : tree tensor) (d : fdt) : Prop := exists pos x, elt p pos = Some x /\ leafdt p pos = d.

Lemma bounded_fit `{L : Libm} T p grad (e : fdt -> Z) : finite_params p -> any_gradients p grad ->
  (forall d, has_dtype p d -> (emin d <= e d)%Z /\ (fprec d + 2 + e d < femax d)%Z) ->
  maps T p in_format (fun d y => has_dtype p d -> ffin y = true /\ Rabs (fval y) <= bpow radix2 (e d)) ->
  forall n, exists q s, fit T grad n p = Ok (q, s) /\ like p q /\
    forall pos x, elt p pos = Some x -> exists y, elt q pos = Some y /\ in_format (leafdt p pos) y /\ fisfinite y = true /\
      Rabs (fval y) <= Rmax (Rabs (fval x)) (bpow radix2 (fprec (leafdt p pos) + 2 + e (leafdt p pos))).
Proof.
  intros (Wp & Hp) HG He HM. apply (loop_inv T p (fun q => forall pos x, elt p pos = Some x -> exists y, elt q pos = Some y /\ in_format (leafdt p pos) y /\ fisfinite y = true /\
      Rabs (fval y) <= Rmax (Rabs (fval x)) (bpow radix2 (fprec (leafdt p pos) + 2 + e (leafdt p pos))))
    (fun g => forall pos x, elt g pos = Some x -> in_format (leafdt p pos) x)
    (fun u => forall pos y, elt u pos = Some y -> ffin y = true /\ Rabs (fval y) <= bpow radix2 (e (leafdt p pos)))); auto.
  - intros H HH. destruct (HM H) as (outs & Ht & Hl & Ho).
    { eapply Forall_impl; [|exact HH]. intros h (A & B & q & C & D & _). eauto. }
    exists outs. split; [exact Ht|]. split; [exact Hl|]. eapply Forall_impl; [|exact Ho]. intros u ((Ea & W) & Hu). split; [split; [exact Ea|exact W]|]. intros pos y Ey. apply (Hu pos y Ey).
    assert (N : elt u pos <> None) by (intros K; pose proof (eq_trans (eq_sym Ey) K); discriminate). apply (elt_like p u pos) in N; auto. destruct (elt p pos) as [x|] eqn:Ex; [exists pos, x; auto|easy].
  - intros q u (Ea & Wq) Iq (Eb & Wu) Uu. destruct (apply_ieee q u) as (r & Er & (Ec & Wr) & _); [congruence|exact Wu|exact Wq|].
    exists r. split; [exact Er|]. split; [split; [congruence|exact Wr]|]. intros pos x Ex. destruct (Iq pos x Ex) as (y & Ey & Fy & fy & By).
    assert (exists v, elt u pos = Some v) as (v & Ev). { assert (N : elt p pos <> None) by (intros K; pose proof (eq_trans (eq_sym Ex) K); discriminate). apply (elt_like u p pos) in N; auto. destruct (elt u pos); [eauto|easy]. }
    destruct (Uu pos v Ev) as (fv & Bv). destruct (He (leafdt p pos)) as (He1 & He2); [exists pos, x; auto|].
    destruct (apply_updates_spec q u) as (r' & Er' & _ & Hr); auto.
    { assert (Es : forall t : tree tensor, tmap shp t = tmap snd (avals t)) by (intros; unfold avals; now rewrite tmap_tmap). now rewrite !Es, Ea, Eb. }
    rewrite Er in Er'. injection Er' as <-. eexists. split.
    { rewrite (Hr pos y v Ey Ev). cbn zeta. rewrite (leafdt_avals u p pos Eb), (leafdt_avals q p pos Ea), promote_same, !flconv. reflexivity. }
    cbn [fadd fisfinite FlOps] in *. destruct (bounded_add (leafdt p pos) (e (leafdt p pos)) y v Fy fy fv Bv He1 He2) as (A1 & A2). split; [apply add_format|]. split; [exact A1|].
    eapply Rle_trans; [exact A2|]. apply Rmax_lub; [exact By|apply Rmax_r].
  - intros pos x Ex. exists x. destruct (Hp pos x Ex) as (A & B). split; [exact Ex|]. split; [exact A|]. split; [exact B|]. apply Rmax_l.
Qed.

(** ** The stages *)
(** What is asked of the learning rate (a number or a schedule): it is a Python float or array of magnitude at most 2^l in every dtype of the parameters. *)
Definition rate_ok `{L : Libm} (p : tree tensor) (LR : lrate) (l : Z) : Prop :=
  forall d t, has_dtype p d -> in_format F64 (rate LR t) /\ fisfinite (fcast d (rate LR t)) = true /\ Rabs (fval (fcast d (rate LR t))) <= bpow radix2 l.
(** What is asked of max_delta: a number >= 0 that is at most [b d] in every dtype [d] of the parameters. *)
Definition clip_ok `{L : Libm} (p : tree tensor) (c : fl) (b : fdt -> R) : Prop :=
  in_format F64 c /\ fle fzero c = true /\ forall d, has_dtype p d -> fisfinite (fcast d c) = true /\ fval (fcast d c) <= b d.

Section Stages.
  Context `{L : Libm} (p : tree (gt fl)).
  Definition within (b : fdt -> R) (d : fdt) (y : fl) : Prop := in_format d y /\ (@has_dtype (FlOps L) p d -> ffin y = true /\ Rabs (fval y) <= b d).
  Lemma guard_stages c b ts B : clip_ok p c b -> maps (chain_gt ts) p (within b) B -> maps (chain_gt (zero_nans :: clip c :: ts)) p in_format B.
  Proof.
    intros (Fc & Hc & Hb) HB. cbn [fle FlOps] in Hc. rewrite fl0 in Hc. apply nonneg_le in Hc.
    apply maps_cons with (fun d x => in_format d x /\ isnan_ x = false); [|apply maps_cons with (within b); [|exact HB]].
    - apply maps_zero_nans. cbn [fisnan fcast FlOps]. intros d x Hx. rewrite fl0. destruct (isnan_ x) eqn:E; cbn; auto.
    - apply maps_clip. intros d x (Fx & Nx). unfold clip_elt. cbn [fmin fmax fcast fneg FlOps]. rewrite cast_opp by exact Fc.
      destruct (clip_fl (cast_ d c) x (cast_nonneg d c Hc)) as (K1 & K2 & _). destruct (K2 Nx) as (K3 & K4). assert (Fd : in_format d (cast_ d c)) by apply cast_format.
      set (y := min_ _ _) in *. split.
      + unfold y, min_, max_. repeat match goal with |- in_format d (if ?b then _ else _) => destruct b end; auto; try exact Logic.I; now apply opp_format.
      + intros Hd. destruct (Hb d Hd) as (K5 & K6). cbn [fisfinite fcast FlOps] in *. clearbody y. set (D := cast_ d c) in *. clearbody D.
        assert (Fy : ffin y = true). { destruct D as [?|?|?|]; try discriminate; destruct y as [?|?|[|]|]; try reflexivity; try discriminate. }
        split; [exact Fy|]. apply le_fin in K3; auto; [|now destruct D]. apply le_fin in K4; auto. assert (fval (opp_ D) = - fval D) by (destruct D; cbn; lra). apply Rabs_le. lra.
  Qed.
  Lemma lr_stage LR (k : fdt -> Z) l : rate_ok p LR l -> (forall d, has_dtype p d -> (emin d <= k d + l)%Z /\ (k d + l < femax d)%Z) ->
    maps (chain_gt [scale_by_learning_rate LR]) p (within (fun d => bpow radix2 (k d))) (fun d y => has_dtype p d -> ffin y = true /\ Rabs (fval y) <= bpow radix2 (k d + l)).
  Proof.
    intros HR Hk. eapply maps_cons; [|apply maps_nil]. apply maps_lr. intros n d x (_ & Hx) Hd. destruct (Hx Hd) as (Fx & Bx). destruct (HR d (count_at n) Hd) as (F1 & F2 & F3). destruct (Hk d Hd) as (K1 & K2).
    cbn [fmul fcast fneg fisfinite FlOps] in *. rewrite cast_opp by exact F1. set (r := cast_ d _) in *. assert (Fr : ffin (opp_ r) = true) by now destruct r.
    assert (Vr : fval (opp_ r) = - fval r) by (destruct r; cbn; lra). rewrite mul_fin by assumption. apply rto_abs_le.
    - now apply fmt_bpow.
    - rewrite Rabs_mult, Vr, Rabs_Ropp, bpow_plus, Rmult_comm. apply Rmult_le_compat; auto using Rabs_pos.
    - now apply bpow_lt.
  Qed.
  Lemma trace_stage decay nest (k : fdt -> Z) : trwf p -> (forall d, has_dtype p d -> fisfinite (fcast d decay) = true /\ 0 <= fval (fcast d decay) < 1 /\ (0 <= k d < femax d)%Z) ->
    maps (trace decay nest None) p (within (fun d => (1 - fval (fcast d decay)) * bpow radix2 (k d))) (within (fun d => bpow radix2 (k d))).
  Proof.
    intros Wp Hk. apply (maps_femits _ p (fun d g q n y => in_format d y /\ (forall k : Z,
      let c := fval (cast_ d decay) in ffin (cast_ d decay) = true -> 0 <= c < 1 -> (0 <= k < femax d)%Z ->
      (forall i, (i <= n)%nat -> ffin (g i) = true /\ Rabs (fval (g i)) <= (1 - c) * bpow radix2 k) ->
      ffin y = true /\ Rabs (fval y) <= bpow radix2 k)) _ _ Wp).
    - eapply refines_femits; [apply refines_trace|]. intros d x g q n Fg _. split.
      + unfold mout. cbn [m_trace m_step fst]. destruct nest; apply add_format.
      + intros k0 c Fc Hc K Hg. destruct (leaky_run decay d k0 x g q n nest ltac:(lia) ltac:(lia) Fc ltac:(apply Hc) ltac:(apply Hc) Hg) as (A & B & _). cbn zeta in A, B. destruct nest; [|split; [exact A|exact B]].
        change (@mout (FlOps L) (@m_trace (FlOps L) decay true) d x g q n) with (add_ (fprec d) (femax d) (g n) (mul_ (fprec d) (femax d) (cast_ d decay) (@mst (FlOps L) (@m_trace (FlOps L) decay true) d x g q (S n)))).
        set (t := @mst (FlOps L) (@m_trace (FlOps L) decay true) d x g q (S n)) in *. change (@mE (FlOps L) (@m_trace (FlOps L) decay true)) with fl in t. clearbody t. destruct (Hg n (le_n _)) as (F0 & H0).
        destruct (leaky_step d k0 (g n) (cast_ d decay) t ltac:(lia) ltac:(lia) F0 Fc (cast_format d decay) ltac:(apply Hc) ltac:(apply Hc) H0 A B) as (A' & B' & _). split; [exact A'|exact B'].
    - intros d x (Fx & _). exact Fx.
    - intros d g q n y Hg (Fy & Hy). split; [exact Fy|]. intros Hd. destruct (Hk d Hd) as (K1 & K2 & K3). apply (Hy (k d) K1 K2 K3). intros i Hi. now apply (proj2 (Hg i Hi)).
  Qed.
End Stages.

(*@ C88_sgd : IEEE arithmetic of every dtype: chain(zero_nans(), clip(c), sgd step). Whatever the gradients are - NaN, infinities, any bit pattern, chosen adversarially at every step from the current parameters - and however many steps are made, no call raises and no parameter ever becomes NaN or infinite: with c <= 2^k and |learning rate| <= 2^l (a number or a schedule) every parameter stays below max(|initial value|, 2^(p+2+k+l)) in magnitude, p the precision of its dtype, because rounding absorbs updates that are too small; only this bound has to be representable. *)
Lemma guarded_sgd : forall `{L : Libm} (c : fl) (LR : lrate) (k l : Z) (p : tree tensor) grad T,
  chain [zero_nans; clip c; scale_by_learning_rate LR] = Ok T ->
  clip_ok p c (fun _ => bpow radix2 k) -> rate_ok p LR l ->
  (forall d, has_dtype p d -> (SpecFloat.emin (fprec d) (femax d) <= k + l)%Z /\ (fprec d + 2 + (k + l) < femax d)%Z) ->
  finite_params p -> any_gradients p grad ->
  forall n, exists q s, fit T grad n p = Ok (q, s) /\ like p q /\
    forall pos x, elt p pos = Some x -> exists y, elt q pos = Some y /\ in_format (leafdt p pos) y /\ fisfinite y = true /\
      Rabs (fval y) <= Rmax (Rabs (fval x)) (bpow radix2 (fprec (leafdt p pos) + 2 + (k + l))).
Proof.
  intros L c LR k l p grad T [= <-] Hc HR Hk Hp HG. apply (bounded_fit _ p grad (fun _ => (k + l)%Z)); auto.
  apply (guard_stages p c _ _ _ Hc). apply (lr_stage p LR (fun _ => k)); [exact HR|]. intros d Hd. destruct (Hk d Hd) as (K1 & K2). pose proof (fprec_gt d) as P. unfold Prec_gt_0 in P. split; [exact K1|lia].
Qed.
(*@ C88_momentum : the same with momentum (nesterov or not): chain(zero_nans(), clip(c), trace(decay), learning rate) keeps every parameter finite for ever, if c <= (1 - decay) 2^k. *)
Lemma guarded_momentum : forall `{L : Libm} (c decay : fl) (nesterov : bool) (LR : lrate) (k l : Z) (p : tree tensor) grad T,
  chain [zero_nans; clip c; trace decay nesterov None; scale_by_learning_rate LR] = Ok T ->
  clip_ok p c (fun d => (1 - fval (fcast d decay)) * bpow radix2 k) -> rate_ok p LR l ->
  (forall d, has_dtype p d -> fisfinite (fcast d decay) = true /\ 0 <= fval (fcast d decay) < 1 /\ (0 <= k < femax d)%Z /\ (SpecFloat.emin (fprec d) (femax d) <= k + l)%Z /\ (fprec d + 2 + (k + l) < femax d)%Z) ->
  finite_params p -> any_gradients p grad ->
  forall n, exists q s, fit T grad n p = Ok (q, s) /\ like p q /\
    forall pos x, elt p pos = Some x -> exists y, elt q pos = Some y /\ in_format (leafdt p pos) y /\ fisfinite y = true /\
      Rabs (fval y) <= Rmax (Rabs (fval x)) (bpow radix2 (fprec (leafdt p pos) + 2 + (k + l))).
Proof.
  intros L c decay nest LR k l p grad T [= <-] Hc HR Hk Hp HG. apply (bounded_fit _ p grad (fun _ => (k + l)%Z)); auto.
  - intros d Hd. destruct (Hk d Hd) as (_ & _ & _ & K1 & K2). auto.
  - apply (guard_stages p c _ _ _ Hc). apply maps_cons with (within p (fun _ => bpow radix2 k)).
    + apply (trace_stage p decay nest (fun _ => k)); [apply Hp|]. intros d Hd. destruct (Hk d Hd) as (A & B & C & _). auto.
    + apply (lr_stage p LR (fun _ => k)); [exact HR|]. intros d Hd. destruct (Hk d Hd) as (_ & _ & _ & K1 & K2). pose proof (fprec_gt d) as P. unfold Prec_gt_0 in P. split; [exact K1|lia].
Qed.

(** ** Adam *)
Lemma adam_out_bound `{L : Libm} (b1 b2 eps eps_root : fl) d x (g q : nat -> fl) n e k j : le_ (Zr false) eps_root = true ->
  adam_ok d b1 b2 e k n -> pos_fin (cast_ d eps) -> bpow radix2 (- j) <= fval (cast_ d eps) -> (emin d <= e + 1 + k + j)%Z -> (e + 1 + k + j < femax d)%Z ->
  (forall i, (i <= n)%nat -> ffin (g i) = true /\ Rabs (fval (g i)) <= bpow radix2 e) ->
  let y := mout (m_adam b1 b2 eps eps_root) d x g q n in in_format d y /\ ffin y = true /\ Rabs (fval y) <= bpow radix2 (e + 1 + k + j).
Proof.
  intros Her Hok Heps Hj Hb0 Hb Hg. cbn zeta. destruct (adam_parts b1 b2 eps eps_root d x g q n e k Hok Hg) as (mh & vh & -> & Hm & Hv & _ & Bm).
  unfold e_adam. cbn [fdiv fadd fsqrt fcast FlOps]. split; [apply div_format|]. apply nonneg_le in Her.
  assert (Hs : fnonneg (sqrt_ (fprec d) (femax d) (add_ (fprec d) (femax d) vh (cast_ d eps_root)))) by (apply sqrt_nonneg, add_nonneg; [exact Hv|now apply cast_nonneg]).
  assert (Hge : fleq (cast_ d eps) (add_ (fprec d) (femax d) (sqrt_ (fprec d) (femax d) (add_ (fprec d) (femax d) vh (cast_ d eps_root))) (cast_ d eps))).
  { rewrite add_comm_fl. apply add_ge'; [now apply positive_nonneg, pos_fin_pos|exact Hs|apply cast_format]. }
  set (dn := add_ _ _ (sqrt_ _ _ _) _) in *. clearbody dn. destruct Heps as (Fe & Pe). set (ep := cast_ d eps) in *. clearbody ep. pose proof (bpow_gt_0 radix2 (- j)) as Pj.
  destruct (ffin dn) eqn:Fdn.
  - apply le_fin in Hge; auto. destruct dn as [|r| |]; try discriminate; cbn [fval] in *; [lra|]. rewrite div_fin by assumption. apply rto_abs_le.
    + now apply fmt_bpow.
    + unfold Rdiv. rewrite Rabs_mult, bpow_plus. apply Rmult_le_compat; auto using Rabs_pos. rewrite Rabs_pos_eq by (left; apply Rinv_0_lt_compat; lra).
      replace (bpow radix2 j) with (/ bpow radix2 (- j)) by (rewrite bpow_opp; field; apply Rgt_not_eq, bpow_gt_0). apply Rinv_le; lra.
    + now apply bpow_lt.
  - apply fleq_nn in Hge as (_ & Hnn). destruct dn; try discriminate. destruct mh; try discriminate; cbn; rewrite Rabs_R0; split; try reflexivity; apply bpow_ge_0.
Qed.
(** 1e-8 is at least 2^-27 after rounding. *)
Lemma eps_default `{L : Libm} d : d <> F16 -> bpow radix2 (-27) <= fval (cast_ d (@flit (FlOps L) (1 # 100000000))).
Proof.
  intros Hd. destruct (lit_near (1 # 100000000)) as (C1 & C2); [unfold Q2R; cbn; lra|]. assert (E3 : Q2R (1 # 100000000) = / 100000000) by (unfold Q2R; cbn; lra). rewrite E3 in C2. apply Rabs_le_inv in C2.
  set (eps := @flit (FlOps L) (1 # 100000000)) in *. clearbody eps. destruct (cast_rel d eps Hd C1) as (D1 & D2); [lra|]. apply Rabs_le_inv in D2. pose proof (prec8 d Hd) as P8. pose proof (bpow_gt_0 radix2 (- fprec d)).
  assert (bpow radix2 (-27) = / 134217728) as -> by (cbn; lra). nra.
Qed.
(*@ C88_adam : the same for Adam with its default hyperparameters on float32, bfloat16 and float64 parameters: chain(zero_nans(), clip(c), scale_by_adam(), learning rate) never makes a parameter NaN or infinite, whatever the gradients, however long the run; c <= 2^k with 0 <= k <= 90, |learning rate| <= 2^l, and 2^(p+34+k+l) representable (float32: k + l <= 69). The platform's pow needs to satisfy 0 <= pow(x,t) <= x + 2^-12 for 0<x<1, t>=1 only. *)
Lemma guarded_adam : forall `{L : Libm} (c : fl) (LR : lrate) (k l : Z) (p : tree tensor) grad T, pow_sane L ->
  chain [zero_nans; clip c; scale_by_adam (flit (9 # 10)) (flit (999 # 1000)) (flit (1 # 100000000)) fzero; scale_by_learning_rate LR] = Ok T ->
  clip_ok p c (fun _ => bpow radix2 k) -> rate_ok p LR l ->
  (forall d, has_dtype p d -> d <> F16 /\ (0 <= k <= 90)%Z /\ (SpecFloat.emin (fprec d) (femax d) <= k + 32 + l)%Z /\ (fprec d + 2 + (k + 32 + l) < femax d)%Z) ->
  finite_params p -> any_gradients p grad ->
  forall n, exists q s, fit T grad n p = Ok (q, s) /\ like p q /\
    forall pos x, elt p pos = Some x -> exists y, elt q pos = Some y /\ in_format (leafdt p pos) y /\ fisfinite y = true /\
      Rabs (fval y) <= Rmax (Rabs (fval x)) (bpow radix2 (fprec (leafdt p pos) + 2 + (k + 32 + l))).
Proof.
  intros L c LR k l p grad T HL [= <-] Hc HR Hk Hp HG. apply (bounded_fit _ p grad (fun _ => (k + 32 + l)%Z)); auto.
  - intros d Hd. destruct (Hk d Hd) as (_ & _ & K1 & K2). auto.
  - apply (guard_stages p c _ _ _ Hc). apply maps_cons with (within p (fun _ => bpow radix2 (k + 32))).
    + apply (maps_femits _ p (fun d g q n y => in_format d y /\ (d <> F16 -> (0 <= k <= 90)%Z -> (forall i, (i <= n)%nat -> ffin (g i) = true /\ Rabs (fval (g i)) <= bpow radix2 k) -> ffin y = true /\ Rabs (fval y) <= bpow radix2 (k + 32)))).
      * apply Hp.
      * eapply refines_femits; [apply refines_adam|]. intros d x g q n Fg _. split.
        { unfold mout. cbn [m_adam m_adamlike m_step fst]. unfold e_adam. apply div_format. }
        intros Hd Hkk Hg. destruct (default_hypers HL d n Hd) as ((A1 & A2 & A3 & A4) & A5). pose proof (eps_default d Hd) as A6. replace (k + 32)%Z with (k + 1 + 4 + 27)%Z by lia. destruct (adam_out_bound (@flit (FlOps L) (9 # 10)) (@flit (FlOps L) (999 # 1000)) (@flit (FlOps L) (1 # 100000000)) (@fzero (FlOps L)) d x g q n k 4 27) as (_ & B1 & B2); auto; try (destruct d; cbn; try easy; lia).
        -- rewrite fl0. apply le_fin; auto. lra.
        -- split; [lia|]. split; [lia|]. split; [destruct d; cbn; try easy; lia|exact A4].
      * intros d x (Fx & _). exact Fx.
      * intros d g q n y Hg (Fy & Hy). split; [exact Fy|]. intros Hd. destruct (Hk d Hd) as (K1 & K2 & _). apply (Hy K1 K2). intros i Hi. now apply (proj2 (Hg i Hi)).
    + apply (lr_stage p LR (fun _ => (k + 32)%Z)); [exact HR|]. intros d Hd. destruct (Hk d Hd) as (_ & _ & K1 & K2). pose proof (fprec_gt d) as P. unfold Prec_gt_0 in P. split; [exact K1|lia].
Qed.
(*@ex C88_example *)
Lemma guarded_example : let p := fone1 F32 (Nz 1) in let nan := fun (_ : nat) (_ : tree (gt fl)) => fone1 F32 Na in
  (forall n, exists q s T, chain (O := FlOps cr_libm) [zero_nans (O := FlOps cr_libm); clip (O := FlOps cr_libm) (Nz 1); scale_by_adam (O := FlOps cr_libm) (@flit (FlOps cr_libm) (9 # 10)) (@flit (FlOps cr_libm) (999 # 1000)) (@flit (FlOps cr_libm) (1 # 100000000)) (@fzero (FlOps cr_libm)); scale_by_learning_rate (O := FlOps cr_libm) (@LConst (FlOps cr_libm) (Nz 1))] = Ok T /\
     fit (O := FlOps cr_libm) T nan n p = Ok (q, s) /\ exists y, elt q (0%nat, 0%nat) = Some y /\ ffin y = true) /\
  (forall n, exists q s T, chain (O := FlOps cr_libm) [zero_nans (O := FlOps cr_libm); clip (O := FlOps cr_libm) (Nz 1); scale_by_learning_rate (O := FlOps cr_libm) (@LConst (FlOps cr_libm) (Nz 1))] = Ok T /\
     fit (O := FlOps cr_libm) T nan n p = Ok (q, s) /\ exists y, elt q (0%nat, 0%nat) = Some y /\ ffin y = true /\ Rabs (fval y) <= bpow radix2 26) /\
  (exists q s T, sgd (O := FlOps cr_libm) (@LConst (FlOps cr_libm) (Nz 1)) None false = Ok T /\ fit (O := FlOps cr_libm) T nan 1 p = Ok (q, s) /\ elt q (0%nat, 0%nat) = Some Na).
Proof.
  cbn zeta. assert (F1 : forall d, in_format d (Nz 1)) by (intros d; rewrite <- (cast1 (L := cr_libm) d); apply cast_format).
  assert (C1 : forall d, cast_ d (Nz 1) = Nz 1) by (intros d; now apply cast_id).
  assert (Hd : forall d, @has_dtype (FlOps cr_libm) (fone1 F32 (Nz 1)) d -> d = F32).
  { intros d ([j i] & x & E & <-). unfold elt, fone1 in E. cbn in E. destruct j; [reflexivity|]. destruct j; discriminate. }
  assert (Hp : finite_params (L := cr_libm) (fone1 F32 (Nz 1))).
  { split; [repeat constructor|]. intros [j i] x E. unfold elt, fone1 in E. cbn in E. destruct j as [|[|j]]; try discriminate. destruct i as [|[|i]]; try discriminate. injection E as <-. split; [apply F1|reflexivity]. }
  assert (HG : any_gradients (L := cr_libm) (fone1 F32 (Nz 1)) (fun _ _ => fone1 F32 Na)).
  { intros i q _. split; [split; [reflexivity|repeat constructor]|]. intros [j k] x E. unfold elt, fone1 in E. cbn in E. destruct j as [|[|j]]; try discriminate. destruct k as [|[|k]]; try discriminate. injection E as <-. exact Logic.I. }
  assert (Hc : clip_ok (L := cr_libm) (fone1 F32 (Nz 1)) (Nz 1) (fun _ => bpow radix2 0)).
  { split; [apply F1|]. split; [rewrite (fl0 (L := cr_libm)); apply le_fin; auto; cbn; lra|]. intros d _. cbn [fcast fisfinite FlOps]. rewrite C1. cbn. split; [reflexivity|lra]. }
  assert (HR : rate_ok (L := cr_libm) (fone1 F32 (Nz 1)) (@LConst (FlOps cr_libm) (Nz 1)) 0).
  { intros d t _. cbn [rate fcast fisfinite FlOps]. rewrite C1. split; [apply F1|]. cbn. rewrite Rabs_R1. split; [reflexivity|lra]. }
  split; [|split].
  - intros n. destruct (guarded_adam (L := cr_libm) (Nz 1) (@LConst (FlOps cr_libm) (Nz 1)) 0 0 (fone1 F32 (Nz 1)) (fun _ _ => fone1 F32 Na) _ cr_pow eq_refl Hc HR) with (n := n) as (q & s & E & _ & He); auto.
    { intros d H. apply Hd in H as ->. cbn. repeat split; try discriminate; lia. }
    destruct (He (0%nat, 0%nat) (Nz 1) eq_refl) as (y & E1 & _ & E2 & _). eexists q, s, _. split; [reflexivity|]. split; [exact E|]. exists y. auto.
  - intros n. destruct (guarded_sgd (L := cr_libm) (Nz 1) (@LConst (FlOps cr_libm) (Nz 1)) 0 0 (fone1 F32 (Nz 1)) (fun _ _ => fone1 F32 Na) _ eq_refl Hc HR) with (n := n) as (q & s & E & _ & He); auto.
    { intros d H. apply Hd in H as ->. cbn. repeat split; try discriminate; lia. }
    destruct (He (0%nat, 0%nat) (Nz 1) eq_refl) as (y & E1 & _ & E2 & E3). eexists q, s, _. split; [reflexivity|]. split; [exact E|]. exists y. split; [exact E1|]. split; [exact E2|]. eapply Rle_trans; [exact E3|].
    apply Rmax_lub; [|cbn; lra]. cbn. rewrite Rabs_R1. lra.
  - eexists _, _, _. split; [reflexivity|]. split; [reflexivity|]. cbn. destruct (fround_ 24 128 (Rlt_bool (- (1)) 0) (- (1))); reflexivity.
Qed.

(** ** Clipping by the global norm *)
(** A sum with a NaN term is NaN, in whatever order the terms are added. *)
Definition sum_nan (L : Libm) : Prop := forall d l, In Na l -> l_sum L d l = Na.
Lemma add_na d x : add_ (fprec d) (femax d) x Na = Na. Proof. now destruct x. Qed.
Lemma gnorm_nan `{L : Libm} (u : tree (gt fl)) : sum_nan L -> (exists t, In t (leaves u) /\ In Na (dat t)) -> snd (@global_norm (FlOps L) u) = Na.
Proof.
  intros HN (t & Ht & Hn). unfold global_norm.
  assert (Hl : In (dt t, Na) (map (fun x => (dt x, @tsum (FlOps L) (@tsquare (FlOps L) x))) (leaves u))).
  { apply in_map_iff. exists t. split; [|exact Ht]. f_equal. unfold tsum, tsquare. cbn [fsum FlOps dt dat]. apply HN. exact (in_map (fun x => mul_ (fprec (dt t)) (femax (dt t)) x x) _ Na Hn). }
  assert (G : forall (l : list (fdt * fl)) a, snd a = Na \/ (exists d, In (d, Na) l) -> snd (fold_left (@add_scalars (FlOps L)) l a) = Na).
  { clear. induction l as [|[d1 y] l IH]; intros [d0 a] H; cbn [fold_left]; [destruct H as [H|(d & [])]; exact H|]. apply IH. cbn [snd] in H.
    assert (C : forall e e', @conv (FlOps L) e e' Na = Na) by (intros e e'; unfold conv; now destruct (fdt_eqb e e')).
    destruct H as [->|(d & [H|H])]; [left|injection H as -> ->; left|right; eauto]; unfold add_scalars; cbn [fst snd]; rewrite C; [reflexivity|apply add_na]. }
  assert (E : snd (@pysum (FlOps L) (map (fun x => (dt x, @tsum (FlOps L) (@tsquare (FlOps L) x))) (leaves u))) = Na).
  { revert Hl. generalize (map (fun x => (dt x, @tsum (FlOps L) (@tsquare (FlOps L) x))) (leaves u)). intros l Hl. destruct l as [|(d0, x0) l]; [destruct Hl|]. cbn [pysum]. rewrite fl0. cbn [fcast cast_ FlOps fadd]. apply G. destruct Hl as [H|H]; [injection H as -> ->; left; apply add_na|right; eauto]. }
  destruct (@pysum (FlOps L) _) as [d0 s]. cbn [snd] in *. subst s. reflexivity.
Qed.
Lemma has_nan_dec (u : tree (gt fl)) : (exists t, In t (leaves u) /\ In Na (dat t)) \/ Forall (fun t => Forall (fun x => isnan_ x = false) (dat t)) (leaves u).
Proof.
  induction (leaves u) as [|t l [(t' & H1 & H2)|IH]]; [right; constructor|left; exists t'; cbn; auto|].
  assert (D : In Na (dat t) \/ Forall (fun x => isnan_ x = false) (dat t)).
  { induction (dat t) as [|x r [H|H]]; [right; constructor|left; now right|]. destruct x; try (right; constructor; [reflexivity|exact H]). left. now left. }
  destruct D as [D|D]; [left; exists t; cbn; auto|right; now constructor].
Qed.
(*@ C88_global_norm_range : IEEE arithmetic, clip_by_global_norm on any tree of one dtype and ANY values: every element of the result is NaN or finite and at most max_norm in magnitude; the only elements turned into NaN are those of a tree with a NaN and the infinite ones; an infinite element does become NaN (finding: zero_nans before clip_by_global_norm does not help against infinities). *)
Lemma cbgn_range : forall `{L : Libm} (u : tree tensor) (m : fl) (d : fdt) st par, sum_sane L -> sum_nan L ->
  trwf u -> Forall (fun t => dt t = d /\ Forall (in_format d) (dat t)) (leaves u) ->
  fisfinite (fcast d m) = true -> bpow radix2 (min_norm_exp d) <= fval (fcast d m) ->
  exists u', update (clip_by_global_norm m) u st par = Ok (u', st) /\ like u u' /\
    forall pos x, elt u pos = Some x -> exists y, elt u' pos = Some y /\ in_format d y /\
      (fisnan y = true \/ (fisfinite y = true /\ Rabs (fval y) <= fval (fcast d m))) /\
      (fisnan y = true <-> (fisfinite x = false \/ exists pos' x', elt u pos' = Some x' /\ fisnan x' = true)).
Proof.
  intros L u m d st par HS HN Wu HF Fm Hm.
  assert (Hd : Forall (fun t : gt fl => dt t = d) (leaves u)) by (eapply Forall_impl; [|exact HF]; now intros t (? & _)).
  eexists. split; [exact (cbgn_gen (O := FlOps L) u m d st par Wu Hd)|]. split; [split; [apply emapt_avals|now apply emapt_wf]|].
  intros pos x Hx. match goal with |- context [tmap (emap ?f) u] => change (tmap (emap f) u) with (emapt f u) end. setoid_rewrite elt_emapt.
  assert (Hx' := Hx). unfold elt in Hx'. destruct (nth_error (leaves u) (fst pos)) as [t|] eqn:Et; [|discriminate].
  assert (Ht : In t (leaves u)) by now apply nth_error_In in Et. assert (Hxt : In x (dat t)) by now apply nth_error_In in Hx'.
  assert (Ld : leafdt u pos = d) by (unfold leafdt; etransitivity; [exact (f_equal (fun o => match o with Some l => dt l | None => F32 end) Et)|]; rewrite Forall_forall in HF; apply HF, Ht).
  eexists. split; [etransitivity; [exact (f_equal (option_map _) Hx)|reflexivity]|]. cbn zeta. rewrite Ld.
  assert (HF' := HF). rewrite Forall_forall in HF'. destruct (HF' t Ht) as (_ & HFt). rewrite Forall_forall in HFt. pose proof (HFt x Hxt) as Ix.
  assert (Hnan : (exists pos' x', elt u pos' = Some x' /\ fisnan x' = true) <-> (exists t, In t (leaves u) /\ In Na (dat t))).
  { split.
    - intros (pos' & x' & E & Hn). unfold elt in E. destruct (nth_error (leaves u) (fst pos')) as [t'|] eqn:Et'; [|discriminate]. exists t'. split; [now apply nth_error_In in Et'|]. apply nth_error_In in E. destruct x'; try discriminate. exact E.
    - intros (t' & H1 & H2). apply In_nth_error in H1 as (j & Ej), H2 as (i & Ei). exists (j, i), Na. split; [|reflexivity]. unfold elt. cbn [fst snd]. etransitivity; [exact (f_equal (fun o => match o with Some l => nth_error (dat l) i | None => None end) Ej)|exact Ei]. }
  rewrite Hnan. clear Hnan. change (@F (FlOps L)) with fl in x. destruct (has_nan_dec u) as [Hn|Hn].
  - pose proof (gnorm_nan u HN Hn) as Eg. cbn [fcast fle flt fabs fisfinite fisnan fmul fdiv FlOps] in *. set (g := snd (global_norm u)) in *. clearbody g. rewrite Eg.
    assert (El : lt_ Na (cast_ d m) = false) by reflexivity. rewrite El. assert (Ed : div_ (fprec d) (femax d) x Na = Na) by now destruct x. rewrite Ed. cbn [mul_ isnan_]. split; [exact Logic.I|]. split; [now left|]. split; auto.
  - destruct (gnorm_spec (L := L) HS d u) as (G1 & G2 & G3).
    + intros E. exact (eq_ind (leaves u) (fun l => In t l) Ht [] E).
    + apply Forall_forall. intros t' Ht'. split; [now apply HF'|]. rewrite Forall_forall in Hn. now apply Hn.
    + cbn [fcast fle flt fabs fisfinite fisnan fmul fdiv FlOps] in *. specialize (G3 t x Ht Hxt). set (g := snd (global_norm u)) in *. clearbody g.
      rewrite Forall_forall in Hn. pose proof (proj1 (Forall_forall _ _) (Hn t Ht) x Hxt) as Nx.
      assert (N0 : ~ exists t, In t (leaves u) /\ In Na (dat t)).
      { intros (t' & H1 & H2). pose proof (proj1 (Forall_forall _ _) (Hn t' H1) Na H2). discriminate. }
      destruct (ffin x) eqn:Fx.
      * destruct (cbgn_elt_bound d x g (cast_ d m) Ix Fx G1 G2 (cast_format d m) Fm Hm G3) as (A & B & _). split; [destruct (lt_ g (cast_ d m)); [exact Ix|apply mul_format]|].
        revert A B. change (@F (FlOps L)) with fl. generalize (if lt_ g (cast_ d m) then x else mul_ (fprec d) (femax d) (div_ (fprec d) (femax d) x g) (cast_ d m)). intros y A B. change (@F (FlOps L)) with fl in y. split; [right; split; [exact A|]|].
        -- apply le_fin in B; auto; [|destruct y; try discriminate; reflexivity]. destruct y; try discriminate; cbn in *; [rewrite Rabs_R0; exact B|exact B].
        -- split; [intros H; destruct y; discriminate|]. intros [H|H]; [discriminate|easy].
      * destruct x as [| |s|]; try discriminate. assert (Es : sqrt_ (fprec d) (femax d) (mul_ (fprec d) (femax d) (If s) (If s)) = If false) by (destruct s; reflexivity). rewrite Es in G3.
        assert (g = If false) as -> by (destruct g as [| |[|]|]; try discriminate; reflexivity).
        assert (El : lt_ (If false) (cast_ d m) = false) by (destruct (cast_ d m); try discriminate; reflexivity). rewrite El. cbn [div_ mul_ isnan_]. split; [exact Logic.I|]. split; [now left|]. split; auto.
Qed.

Lemma maps_cbgn `{L : Libm} p c d : sum_sane L -> sum_nan L -> trwf p -> Forall (fun t => dt t = d) (leaves p) -> fisfinite (fcast d c) = true -> bpow radix2 (min_norm_exp d) <= fval (fcast d c) ->
  maps (clip_by_global_norm c) p in_format (fun d' y => in_format d' y /\ (has_dtype p d' -> d' = d) /\ (isnan_ y = true \/ (ffin y = true /\ Rabs (fval y) <= fval (cast_ d c)))).
Proof.
  intros HS HN Wp Hd Fc Hc H HH.
  assert (Hdt : forall d', has_dtype p d' -> d' = d).
  { intros d' (pos & x & Ex & <-). unfold elt in Ex. unfold leafdt. destruct (nth_error (leaves p) (fst pos)) as [t|] eqn:Et; [|discriminate]. apply nth_error_In in Et. rewrite Forall_forall in Hd. now apply Hd. }
  assert (G : exists outs, run (clip_by_global_norm c) (SNode NEmpty []) H = Ok (outs, SNode NEmpty []) /\ length outs = length H /\ Forall (fun u => like p u /\ forall pos y, elt u pos = Some y -> in_format (leafdt p pos) y /\ (has_dtype p (leafdt p pos) -> leafdt p pos = d) /\ (isnan_ y = true \/ (ffin y = true /\ Rabs (fval y) <= fval (cast_ d c)))) outs).
  { induction HH as [|[u par] H (((Ea & Wu) & Fu) & _) HH IH]; [exists []; repeat split; constructor|]. cbn [fst snd] in *. destruct IH as (outs & Er & El & Ho).
    assert (Hdu : Forall (fun t : gt fl => dt t = d) (leaves u)).
    { assert (Q : forall v : tree (gt fl), Forall (fun t => dt t = d) (leaves v) <-> Forall (fun a => fst a = d) (leaves (avals v))) by (intros v; unfold avals; rewrite leaves_tmap, Forall_map; reflexivity).
      apply Q. exact (eq_ind_r (fun a => Forall (fun b => fst b = d) (leaves a)) (proj1 (Q p) Hd) Ea). }
    assert (Hleaf : forall pos x, elt u pos = Some x -> leafdt p pos = d).
    { intros pos x Ex. rewrite <- (leafdt_avals u p pos Ea). unfold elt in Ex. unfold leafdt. destruct (nth_error (leaves u) (fst pos)) as [t|] eqn:Et; [|discriminate]. apply nth_error_In in Et. rewrite Forall_forall in Hdu. now apply Hdu. }
    destruct (cbgn_range u c d (SNode NEmpty []) par HS HN Wu) as (u' & Eu & (Ea' & Wu') & Hu); [|exact Fc|exact Hc|].
    { apply Forall_forall. intros t Ht. split; [rewrite Forall_forall in Hdu; now apply Hdu|]. apply Forall_forall. intros x Hx. apply In_nth_error in Ht as (j & Ej), Hx as (i & Ei).
      assert (Ex : elt u (j, i) = Some x) by (unfold elt; cbn [fst snd]; etransitivity; [exact (f_equal (fun o => match o with Some l => nth_error (dat l) i | None => None end) Ej)|exact Ei]). rewrite <- (Hleaf _ _ Ex). now apply (Fu (j, i)). }
    exists (u' :: outs). cbn [run]. rewrite Eu. cbn [rbind]. rewrite Er. cbn [rbind]. split; [reflexivity|]. split; [exact (f_equal S El)|]. constructor; [|exact Ho]. split; [split; [congruence|exact Wu']|]. intros pos y Ey.
    assert (exists x, elt u pos = Some x) as (x & Ex). { assert (N : elt u' pos <> None) by (intros K; pose proof (eq_trans (eq_sym Ey) K); discriminate). apply (elt_like u u' pos) in N; auto. destruct (elt u pos); [eauto|easy]. }
    destruct (Hu pos x Ex) as (y' & Ey' & F1 & F2 & _). pose proof (eq_trans (eq_sym Ey) Ey') as K. injection K as <-. rewrite (Hleaf pos x Ex). auto. }
  destruct G as (outs & Er & El & Ho). exists outs. split; [exists (SNode NEmpty []), (SNode NEmpty []); split; [reflexivity|exact Er]|]. split; [exact El|]. eapply Forall_impl; [|exact Ho]. intros u (Lu & Hu). split; [exact Lu|]. intros pos y Ey. destruct (Hu pos y Ey) as (A & B & C). split; [exact A|]. split; [|exact C]. apply Hdt.
Qed.

(*@ C88_global_norm : IEEE arithmetic, parameters of one dtype: chain(clip_by_global_norm(c), zero_nans(), learning rate), in this order, is safe too: whatever the gradients, no parameter ever becomes NaN or infinite. Platform assumptions: a sum of non-negative terms is at least each of them, and a sum with a NaN is NaN. *)
Lemma guarded_global_norm : forall `{L : Libm} (c : fl) (d : fdt) (LR : lrate) (k l : Z) (p : tree tensor) grad T, sum_sane L -> sum_nan L ->
  chain [clip_by_global_norm c; zero_nans; scale_by_learning_rate LR] = Ok T ->
  Forall (fun t => dt t = d) (leaves p) ->
  fisfinite (fcast d c) = true -> bpow radix2 (min_norm_exp d) <= fval (fcast d c) <= bpow radix2 k -> rate_ok p LR l ->
  (SpecFloat.emin (fprec d) (femax d) <= k + l)%Z -> (fprec d + 2 + (k + l) < femax d)%Z ->
  finite_params p -> any_gradients p grad ->
  forall n, exists q s, fit T grad n p = Ok (q, s) /\ like p q /\
    forall pos x, elt p pos = Some x -> exists y, elt q pos = Some y /\ in_format (leafdt p pos) y /\ fisfinite y = true /\
      Rabs (fval y) <= Rmax (Rabs (fval x)) (bpow radix2 (fprec (leafdt p pos) + 2 + (k + l))).
Proof.
  intros L c d LR k l p grad T HS HN [= <-] Hd Fc (Hc1 & Hc2) HR K1 K2 Hp HG.
  assert (Hdt : forall d', has_dtype p d' -> d' = d).
  { intros d' (pos & x & Ex & <-). unfold elt in Ex. unfold leafdt. destruct (nth_error (leaves p) (fst pos)) as [t|] eqn:Et; [|discriminate]. apply nth_error_In in Et. rewrite Forall_forall in Hd. now apply Hd. }
  apply (bounded_fit _ p grad (fun _ => (k + l)%Z)); auto.
  - intros d' H. now rewrite (Hdt d' H).
  - eapply maps_cons; [apply (maps_cbgn p c d HS HN (proj1 Hp) Hd Fc Hc1)|]. apply maps_cons with (within p (fun _ => bpow radix2 k)).
    + apply maps_zero_nans. cbn [fisnan fcast FlOps] in *. intros d' x (Fx & _ & Hx). rewrite fl0. destruct (isnan_ x) eqn:E.
      * split; [exact Logic.I|]. intros _. cbn. rewrite Rabs_R0. split; [reflexivity|apply bpow_ge_0].
      * split; [exact Fx|]. intros _. destruct Hx as [Hx|(Hx & Bx)]; [discriminate|]. split; [exact Hx|]. eapply Rle_trans; [exact Bx|exact Hc2].
    + apply (lr_stage p LR (fun _ => k)); [exact HR|]. intros d' H. rewrite (Hdt d' H). pose proof (fprec_gt d) as P. unfold Prec_gt_0 in P. split; [exact K1|lia].
Qed.
Lemma cr_sum_nan : sum_nan cr_libm.
Proof.
  intros d l Hl. cbn [l_sum cr_libm]. generalize (Zr false). induction l as [|x l IH]; intros a; [destruct Hl|]. cbn [fold_left]. destruct Hl as [->|Hl]; [|now apply IH].
  rewrite add_na. clear. induction l as [|x l IH]; [reflexivity|exact IH].
Qed.
(*@ex C88_global_norm_example *)
Lemma guarded_norm_example : let p := fone1 F32 (Nz 1) in let inf := fun (_ : nat) (_ : tree (gt fl)) => fone1 F32 (If false) in
  (forall n, exists q s T, chain (O := FlOps cr_libm) [clip_by_global_norm (O := FlOps cr_libm) (Nz 1); zero_nans (O := FlOps cr_libm); scale_by_learning_rate (O := FlOps cr_libm) (@LConst (FlOps cr_libm) (Nz 1))] = Ok T /\
     fit (O := FlOps cr_libm) T inf n p = Ok (q, s) /\ exists y, elt q (0%nat, 0%nat) = Some y /\ ffin y = true) /\
  (exists q s T, chain (O := FlOps cr_libm) [zero_nans (O := FlOps cr_libm); clip_by_global_norm (O := FlOps cr_libm) (Nz 1)] = Ok T /\ fit (O := FlOps cr_libm) T inf 1 p = Ok (q, s) /\ elt q (0%nat, 0%nat) = Some Na).
Proof.
  cbn zeta. assert (F1 : forall d, in_format d (Nz 1)) by (intros d; rewrite <- (cast1 (L := cr_libm) d); apply cast_format).
  assert (C1 : forall d, cast_ d (Nz 1) = Nz 1) by (intros d; now apply cast_id).
  assert (Hp : finite_params (L := cr_libm) (fone1 F32 (Nz 1))).
  { split; [repeat constructor|]. intros [j i] x E. unfold elt, fone1 in E. cbn in E. destruct j as [|[|j]]; try discriminate. destruct i as [|[|i]]; try discriminate. injection E as <-. split; [apply F1|reflexivity]. }
  assert (HG : any_gradients (L := cr_libm) (fone1 F32 (Nz 1)) (fun _ _ => fone1 F32 (If false))).
  { intros i q _. split; [split; [reflexivity|repeat constructor]|]. intros [j k] x E. unfold elt, fone1 in E. cbn in E. destruct j as [|[|j]]; try discriminate. destruct k as [|[|k]]; try discriminate. injection E as <-. exact Logic.I. }
  assert (HR : rate_ok (L := cr_libm) (fone1 F32 (Nz 1)) (@LConst (FlOps cr_libm) (Nz 1)) 0).
  { intros d t _. cbn [rate fcast fisfinite FlOps]. rewrite C1. split; [apply F1|]. cbn. rewrite Rabs_R1. split; [reflexivity|lra]. }
  split.
  - intros n. destruct (guarded_global_norm (L := cr_libm) (Nz 1) F32 (@LConst (FlOps cr_libm) (Nz 1)) 0 0 (fone1 F32 (Nz 1)) (fun _ _ => fone1 F32 (If false)) _ cr_sum cr_sum_nan eq_refl) with (n := n) as (q & s & E & _ & He); auto.
    + repeat constructor.
    + cbn [fcast fisfinite FlOps]. now rewrite C1.
    + cbn [fcast FlOps]. rewrite C1. cbn. lra.
    + cbn. lia.
    + cbn. lia.
    + destruct (He (0%nat, 0%nat) (Nz 1) eq_refl) as (y & E1 & _ & E2 & _). eexists q, s, _. split; [reflexivity|]. split; [exact E|]. exists y. auto.
  - destruct (cbgn_range (L := cr_libm) (fone1 F32 (If false)) (Nz 1) F32 (SNode NEmpty []) (Some (fone1 F32 (Nz 1))) cr_sum cr_sum_nan) as (u' & Eu & (Ea & Wu) & Hu).
    + repeat constructor.
    + repeat constructor.
    + cbn [fcast fisfinite FlOps]. now rewrite C1.
    + cbn [fcast FlOps]. rewrite C1. cbn. lra.
    + destruct (Hu (0%nat, 0%nat) (If false) eq_refl) as (y & Ey & _ & _ & Hy). assert (Hn : isnan_ y = true) by (apply Hy; now left). destruct y; try discriminate.
      destruct (apply_ieee (L := cr_libm) (fone1 F32 (Nz 1)) u') as (r & Er & _); [exact Ea|exact Wu|repeat constructor|].
      destruct (apply_updates_spec (O := FlOps cr_libm) (fone1 F32 (Nz 1)) u') as (r' & Er' & _ & Hr); try exact Wu; try (repeat constructor; fail).
      { assert (Es : forall t : tree (gt fl), tmap shp t = tmap snd (avals t)) by (intros; unfold avals; now rewrite tmap_tmap). symmetry. etransitivity; [apply Es|]. exact (f_equal (tmap snd) Ea). }
      rewrite Er in Er'. injection Er' as <-. eexists r, _, _. split; [reflexivity|]. split.
      * assert (Ez : update (O := FlOps cr_libm) zero_nans (fone1 F32 (If false)) (SNode NZeroNans [SBTree (Leaf false)]) (Some (fone1 F32 (Nz 1))) = Ok (fone1 F32 (If false), SNode NZeroNans [SBTree (Leaf false)])) by reflexivity.
        assert (Ec : chain_update (O := FlOps cr_libm) [zero_nans; clip_by_global_norm (O := FlOps cr_libm) (Nz 1)] [SNode NZeroNans [SBTree (Leaf false)]; SNode NEmpty []] (fone1 F32 (If false)) (Some (fone1 F32 (Nz 1))) = Ok (u', [SNode NZeroNans [SBTree (Leaf false)]; SNode NEmpty []])).
        { etransitivity; [exact (f_equal (fun o => rbind o _) Ez)|]. cbn [rbind]. etransitivity; [exact (f_equal (fun o => rbind (rbind o _) _) Eu)|reflexivity]. }
        refine (eq_trans (y := let* (u, s') := (let* (u2, ss) := chain_update (O := FlOps cr_libm) [zero_nans; clip_by_global_norm (O := FlOps cr_libm) (Nz 1)] [SNode NZeroNans [SBTree (Leaf false)]; SNode NEmpty []] (fone1 F32 (If false)) (Some (fone1 F32 (Nz 1))) in Ok (u2, SNode NList ss)) in
           let* q' := apply_updates (O := FlOps cr_libm) (fone1 F32 (Nz 1)) u in Ok (q', s')) eq_refl _).
        rewrite Ec. cbn [rbind]. rewrite Er. reflexivity.
      * etransitivity; [apply (Hr (0%nat, 0%nat) (Nz 1) Na eq_refl Ey)|]. cbn zeta. rewrite (leafdt_avals u' (fone1 F32 (Nz 1)) (0%nat, 0%nat) Ea). cbn. reflexivity.
Qed.

(** ** The four dtypes *)
(** Largest finite number, smallest positive number, distance from 1 to the next number. *)
Definition max_finite (d : fdt) : R :=
  match d with F16 => 65504 | BF16 => 255 * bpow radix2 120 | F32 => 16777215 * bpow radix2 104 | F64 => 9007199254740991 * bpow radix2 971 end.
Definition min_positive (d : fdt) : R :=
  match d with F16 => bpow radix2 (-24) | BF16 => bpow radix2 (-133) | F32 => bpow radix2 (-149) | F64 => bpow radix2 (-1074) end.
Definition machine_eps (d : fdt) : R :=
  match d with F16 => bpow radix2 (-10) | BF16 => bpow radix2 (-7) | F32 => bpow radix2 (-23) | F64 => bpow radix2 (-52) end.
Lemma max_finite_eq d : max_finite d = bpow radix2 (femax d) - bpow radix2 (femax d - fprec d).
Proof.
  assert (G : forall p e : Z, (0 <= p)%Z -> bpow radix2 (p + e) - bpow radix2 e = (IZR (2 ^ p) - 1) * bpow radix2 e).
  { intros p e Hp. rewrite bpow_plus. pose proof (IZR_Zpower radix2 p Hp) as Q. change (Zaux.radix_val radix2) with 2%Z in Q. rewrite Q. ring. }
  destruct d; unfold max_finite, femax, fprec.
  - replace 16%Z with (11 + 5)%Z at 1 by lia. change (16 - 11)%Z with 5%Z. rewrite G by lia. cbn. lra.
  - replace 128%Z with (8 + 120)%Z at 1 by lia. change (128 - 8)%Z with 120%Z. rewrite G by lia. f_equal. change (2 ^ 8)%Z with 256%Z. lra.
  - replace 128%Z with (24 + 104)%Z at 1 by lia. change (128 - 24)%Z with 104%Z. rewrite G by lia. f_equal. change (2 ^ 24)%Z with 16777216%Z. lra.
  - replace 1024%Z with (53 + 971)%Z at 1 by lia. change (1024 - 53)%Z with 971%Z. rewrite G by lia. f_equal. change (2 ^ 53)%Z with 9007199254740992%Z. lra.
Qed.
(*@ C07_formats : the formats are those of float16, bfloat16, float32 and float64: the largest finite number (65504; 255*2^120; (2^24-1)*2^104; (2^53-1)*2^971), the smallest positive one (2^-24; 2^-133; 2^-149; 2^-1074) and the successor of 1 (1+2^-10; 1+2^-7; 1+2^-23; 1+2^-52). *)
Lemma dtype_formats : forall d : fdt,
  (in_format d (Nz (max_finite d)) /\ forall r, in_format d (Nz r) -> Rabs r <= max_finite d) /\
  (in_format d (Nz (min_positive d)) /\ forall r, in_format d (Nz r) -> min_positive d <= Rabs r) /\
  (in_format d (Nz (1 + machine_eps d)) /\ forall r, in_format d (Nz r) -> 1 < r -> 1 + machine_eps d <= r).
Proof.
  intros d. pose proof (fprec_gt d) as Pp. unfold Prec_gt_0 in Pp. pose proof (fe_valid d) as V.
  assert (Lt : (fprec d < femax d)%Z) by (destruct d; cbn; lia). pose proof (bpow_lt radix2 (femax d - fprec d) (femax d) ltac:(lia)) as Lb. pose proof (bpow_gt_0 radix2 (femax d - fprec d)) as Pb.
  assert (FT : fmt d (bpow radix2 (femax d))) by (apply fmt_bpow; destruct d; cbn; lia).
  assert (EP : Ulp.pred radix2 (fe d) (bpow radix2 (femax d)) = max_finite d).
  { rewrite pred_bpow, max_finite_eq. f_equal. f_equal. unfold SpecFloat.fexp, SpecFloat.emin. destruct d; reflexivity. }
  split; [|split].
  - assert (Fm : fmt d (max_finite d)) by (rewrite <- EP; apply generic_format_pred; [exact V|exact FT]). rewrite max_finite_eq in *. split.
    + split; [lra|]. split; [exact Fm|]. rewrite Rabs_pos_eq by lra. lra.
    + intros r (Nr & Fr & Tr). rewrite <- EP. apply pred_ge_gt; [exact V|now apply generic_format_abs|exact FT|exact Tr].
  - assert (E : min_positive d = bpow radix2 (emin d)) by (destruct d; reflexivity). rewrite E. pose proof (bpow_gt_0 radix2 (emin d)) as Pe. split.
    + split; [lra|]. split; [apply fmt_bpow; lia|]. rewrite Rabs_pos_eq by lra. apply bpow_lt. destruct d; cbn; lia.
    + intros r (Nr & Fr & Tr). apply (generic_format_ge_bpow radix2 (fe d)); [|now apply Rabs_pos_lt|now apply generic_format_abs]. intros e. unfold SpecFloat.fexp. lia.
  - assert (E : 1 + machine_eps d = Ulp.succ radix2 (fe d) 1).
    { rewrite succ_eq_pos by lra. f_equal. change 1 with (bpow radix2 0). rewrite ulp_bpow. destruct d; reflexivity. }
    rewrite E. split.
    + assert (Pm : 0 < machine_eps d <= 1).
      { destruct d; unfold machine_eps; (split; [apply bpow_gt_0|]); change 1 with (bpow radix2 0); apply bpow_le; lia. }
      split; [lra|]. split; [apply generic_format_succ; [exact V|apply fmt_1]|]. rewrite <- E. rewrite Rabs_pos_eq by lra.
      apply Rle_lt_trans with (bpow radix2 1); [cbn; lra|]. apply bpow_lt. destruct d; cbn; lia.
    + intros r (Nr & Fr & Tr) Hr. apply succ_le_lt; [exact V|apply fmt_1|exact Fr|exact Hr].
Qed.
