(** Loss scaling (C96) and weight decay as regularisation (C97). *)
From Verif Require Import P_elem P_equiv P_pipe P_diverge.
From Verif Require Export P_ieee9 P_batch.
From Coq Require Import List Psatz Bool Qreals.
From Flocq Require Import Core.Core IEEE754.BinarySingleNaN.
Import ListNotations.
Open Scope R_scope.
(*@header
From Verif Require Import P_pipe.
From Coq Require Import List.
From Flocq Require Import Core.Core.
Import ListNotations.
Open Scope R_scope.
*)

(** ** Specification *)
(** The outcome of a training run, with the state [a] of one more transformation put in front. *)
Definition with_front `{O : Ops} (a : state) (r : result (tree tensor * state)) : result (tree tensor * state) :=
  match r with Ok (q, SNode NList ss) => Ok (q, SNode NList (a :: ss)) | Ok (q, s) => Ok (q, s) | Err e => Err e end.
(** Every element of [u'] is [f d] of the element of [u] at the same place, [d] its dtype; same structure, shapes and dtypes as [p]. *)
Definition elementwise_of `{O : Ops} (f : fdt -> F -> F -> F -> Prop) (p q u u' : tree tensor) : Prop :=
  like p u /\ like p u' /\ forall pos x y, elt q pos = Some x -> elt u pos = Some y -> exists z, elt u' pos = Some z /\ f (leafdt p pos) x y z.
(** The parameters of the run keep the signature of [p] (every optimiser of C87 does that). *)
Definition keeps `{O : Ops} (p : tree tensor) (T : GT) (G : nat -> tree tensor -> tree tensor) : Prop := forall i q s, fit T G i p = Ok (q, s) -> like p q.

(** ** A stateless first stage *)
Lemma chain_update_length `{O : Ops} ts : forall ss u p u' ss', length ss = length ts -> chain_update ts ss u p = Ok (u', ss') -> length ss' = length ts.
Proof.
  induction ts as [|t ts IH]; intros [|s ss] u p u' ss' Hl E; cbn [chain_update] in E; try discriminate; [injection E as <- <-; reflexivity|].
  destruct (update t u s p) as [[u1 s1]|]; [|discriminate]. cbn [rbind] in E. destruct (chain_update ts ss u1 p) as [[u2 ss2]|] eqn:E2; [|discriminate]. cbn [rbind] in E. injection E as <- <-. cbn. f_equal. eapply IH; [|exact E2]. cbn in Hl. lia.
Qed.
Lemma fit_chain_state `{O : Ops} ts G p : forall n q s, fit (chain_gt ts) G n p = Ok (q, s) -> exists ss, s = SNode NList ss /\ length ss = length ts.
Proof.
  induction n as [|n IH]; intros q s E; cbn [fit] in E.
  - cbn [init chain_gt] in E. destruct (chain_init ts p) as [ss|] eqn:Ec; [|discriminate]. cbn in E. injection E as <- <-. exists ss. split; [reflexivity|]. eapply chain_init_length; eauto.
  - destruct (fit (chain_gt ts) G n p) as [[q0 s0]|]; [|discriminate]. cbn [rbind] in E. destruct (IH _ _ eq_refl) as (ss & -> & Hl). cbn [update chain_gt] in E. rewrite <- Hl, Nat.eqb_refl in E.
    destruct (chain_update ts ss (G n q0) (Some q0)) as [[u ss']|] eqn:Eu; [|discriminate]. cbn [rbind] in E. destruct (apply_updates q0 u) as [q1|]; [|discriminate]. cbn [rbind] in E. injection E as <- <-. exists ss'. split; [reflexivity|].
    exact (chain_update_length ts ss _ _ _ _ Hl Eu).
Qed.
Lemma front `{O : Ops} (A : GT) (ts : list GT) (a : state) (grad G : nat -> tree tensor -> tree tensor) (p : tree tensor) : init A p = Ok a ->
  (forall i q s, fit (chain_gt ts) G i p = Ok (q, s) -> update A (grad i q) a (Some q) = Ok (G i q, a)) ->
  forall n, fit (chain_gt (A :: ts)) grad n p = with_front a (fit (chain_gt ts) G n p).
Proof.
  intros HA HU n. induction n as [|n IH]; cbn [fit].
  - cbn [init chain_gt chain_init]. rewrite HA. cbn [rbind rmap]. destruct (chain_init ts p) as [ss|e]; reflexivity.
  - rewrite IH. destruct (fit (chain_gt ts) G n p) as [[q s]|e] eqn:E; [|reflexivity]. destruct (fit_chain_state ts G p n q s E) as (ss & -> & Hl). cbn [with_front rbind].
    cbn [update chain_gt length]. rewrite Hl, !Nat.eqb_refl. cbn [chain_update]. rewrite (HU n q _ E). cbn [rbind].
    destruct (chain_update ts ss (G n q) (Some q)) as [[u ss']|e]; [|reflexivity]. cbn [rbind]. destruct (apply_updates q u) as [q'|e]; reflexivity.
Qed.
(** The first stage is a stateless machine. *)
Lemma stateless_front `{O : Ops} (A : GT) (np : bool) f (ts : list GT) (grad G : nat -> tree tensor -> tree tensor) (p : tree tensor) (HR : refines np A (m_fun f)) :
  (forall u s q, like p q -> like p u -> init A p = Ok s -> exists u', update A u s (Some q) = Ok (u', s)) ->
  trwf p -> keeps p (chain_gt ts) G ->
  (forall i q, like p q -> elementwise_of (fun d x y z => forall k, f k d y x = z) p q (grad i q) (G i q)) ->
  exists a, init A p = Ok a /\ forall n, fit (chain_gt (A :: ts)) grad n p = with_front a (fit (chain_gt ts) G n p).
Proof.
  intros Hst Wp Hk Hg. destruct HR as (repr & sg & Hi & Hsg & Hnp & Hu). exists (repr 0%nat (emapt (m_init (m_fun f)) p)). split; [now apply Hi|]. apply front; [now apply Hi|].
  intros i q s E. assert (Lq : like p q) by exact (Hk i q s E). destruct (Hg i q Lq) as (Lu & LG & He).
  set (g := grad i q) in *. destruct (Hst g _ q Lq Lu (Hi p Wp)) as (u' & Eu). rewrite Eu. f_equal. f_equal.
  assert (HZ : exists W : tree (gt (F * F * mE (m_fun f))), trwf W /\ avals W = avals p /\ g = emapt (fun _ z => fst (fst z)) W /\ q = emapt (fun _ z => snd (fst z)) W /\ emapt (m_init (m_fun f)) p = emapt (fun _ z => snd z) W).
  { destruct Lq as (Aq & Wq), Lu as (Ag & Wg). destruct (tree_gzip g q (eq_trans Ag (eq_sym Aq)) Wg Wq) as (W1 & A1 & B1 & E1 & E2).
    destruct (tree_gzip W1 (emapt (m_init (m_fun f)) p)) as (W & A2 & B2 & E3 & E4); [rewrite emapt_avals; rewrite <- E1, emapt_avals in Ag; exact Ag|exact B1|now apply emapt_wf|].
    exists W. split; [exact B2|]. split; [rewrite <- E1, emapt_avals in Ag; rewrite <- E3, emapt_avals in Ag; exact Ag|].
    rewrite <- E4. rewrite <- E1, <- E2, <- E3, !emapt_emapt. auto. }
  destruct HZ as (W & WW & AW & Eg & Eq & EZ). rewrite EZ in Eu. pose proof (Hu 0%nat W (Some q) WW ltac:(intros _; now rewrite Eq)) as Eu2. rewrite <- Eg in Eu2. rewrite Eu2 in Eu. injection Eu as Eu _.
  destruct LG as (AG & WG). apply (tree_eq p); [exact Wp|rewrite <- Eu, emapt_avals; exact AW|rewrite <- Eu; now apply emapt_wf|exact AG|exact WG|]. intros pos. rewrite <- Eu, elt_emapt.
  cbn [mE m_fun] in *. destruct (elt W pos) as [[[y x] e]|] eqn:EW.
  - destruct (He pos x y) as (z & Ez & Hz); [rewrite Eq, elt_emapt, EW; reflexivity|rewrite Eg, elt_emapt, EW; reflexivity|]. rewrite Ez. cbn [option_map m_step m_fun fst snd]. f_equal. rewrite (leafdt_avals W p pos AW). apply Hz.
  - cbn. symmetry. destruct (tree_gzip (G i q) W (eq_trans AG (eq_sym AW)) WG WW) as (V & _ & _ & E1 & E2). rewrite <- E2, elt_emapt in EW. rewrite <- E1, elt_emapt. destruct (elt V pos); [discriminate|reflexivity].
Qed.

(*@ C97_l2 : weight decay in front of any optimiser, in any arithmetic, is L2 regularisation of the loss: let G i q be the gradient grad i q plus weight_decay times the parameters q, element by element. Then training chain(add_decayed_weights(weight_decay), *ts) on grad gives exactly, after any number of steps, the parameters and the states of chain( *ts) trained on G, and raises exactly when that does. *)
Lemma weight_decay_is_l2 : forall `{O : Ops} (wd : F) (ts : list GT) (grad G : nat -> tree tensor -> tree tensor) (p : tree tensor),
  trwf p -> keeps p (chain_gt ts) G ->
  (forall i q, like p q -> elementwise_of (fun d x y z => z = fadd d y (fmul d (fcast d wd) x)) p q (grad i q) (G i q)) ->
  exists a, init (add_decayed_weights wd) p = Ok a /\ forall n, fit (chain_gt (add_decayed_weights wd :: ts)) grad n p = with_front a (fit (chain_gt ts) G n p).
Proof.
  intros O wd ts grad G p Wp Hk Hg. apply (stateless_front _ false _ ts grad G p (refines_wd wd)); try assumption.
  - intros u s q Lq Lu _. destruct (refines_wd wd) as (repr & sg & Hi & _ & _ & Hu). destruct Lq as (Aq & Wq), Lu as (Au & Wu).
    destruct (tree_gzip u q (eq_trans Au (eq_sym Aq)) Wu Wq) as (W1 & A1 & B1 & E1 & E2).
    cbn [update add_decayed_weights stateless]. rewrite <- E1, <- E2. erewrite tmm2_ew; [cbn; eexists; reflexivity|]. intros; rewrite ?emap_emap, ?un_emap, ?sl_emap, ?sr_emap; rewrite ?emap_emap; rewrite bin_emap; reflexivity.
  - intros i q Lq. destruct (Hg i q Lq) as (H1 & H2 & H3). split; [exact H1|]. split; [exact H2|]. intros pos x y Ex Ey. destruct (H3 pos x y Ex Ey) as (z & Ez & ->). eexists. split; [exact Ez|]. reflexivity.
Qed.
(*@ C96_unscale : loss scaling, any arithmetic: if multiplying each element of the gradients grad by the constant c gives the element of G, then training chain(scale(c), *ts) on grad is, parameters, states and failures included, training chain( *ts) on G. *)
Lemma unscale : forall `{O : Ops} (c : F) (ts : list GT) (grad G : nat -> tree tensor -> tree tensor) (p : tree tensor),
  trwf p -> keeps p (chain_gt ts) G ->
  (forall i q, like p q -> elementwise_of (fun d _ y z => z = fmul d (fcast d c) y) p q (grad i q) (G i q)) ->
  exists a, init (scale c) p = Ok a /\ forall n, fit (chain_gt (scale c :: ts)) grad n p = with_front a (fit (chain_gt ts) G n p).
Proof.
  intros O c ts grad G p Wp Hk Hg. apply (stateless_front _ true _ ts grad G p (refines_scale c)); try assumption.
  - intros u s q Lq Lu _. eexists. reflexivity.
  - intros i q Lq. destruct (Hg i q Lq) as (H1 & H2 & H3). split; [exact H1|]. split; [exact H2|]. intros pos x y Ex Ey. destruct (H3 pos x y Ex Ey) as (z & Ez & ->). eexists. split; [exact Ez|]. reflexivity.
Qed.

(** ** Loss scaling *)
Lemma xmul_inv c y : c <> 0 -> xmul (Fin (/ c)) (xmul (Fin c) y) = y.
Proof.
  intros Hc. assert (E : forall s, c <> 0 -> (s = 1 \/ s = -1)%Z -> xmul (Fin (/ c)) (xinf (rsgn c * s)) = xinf s).
  { intros s _ Hs. unfold rsgn. destruct (Rlt_dec 0 c) as [H|H]; [|destruct (Rlt_dec c 0); [|lra]].
    - pose proof (Rinv_0_lt_compat c H) as Hi. destruct Hs as [-> | ->]; cbn; unfold rsgn; (destruct (Rlt_dec 0 (/ c)); [|lra]); reflexivity.
    - pose proof (Rinv_lt_0_compat c r) as Hi. destruct Hs as [-> | ->]; cbn; unfold rsgn; (destruct (Rlt_dec 0 (/ c)); [lra|]); (destruct (Rlt_dec (/ c) 0); [|lra]); reflexivity. }
  destruct y as [r| | |].
  - cbn. f_equal. field. exact Hc.
  - change (xmul (Fin c) PInf) with (xinf (rsgn c * 1)). rewrite (E 1%Z Hc); [reflexivity|lia].
  - change (xmul (Fin c) NInf) with (xinf (rsgn c * -1)). rewrite (E (-1)%Z Hc); [reflexivity|lia].
  - reflexivity.
Qed.
(*@ C96_loss_scaling : loss scaling is exactly undone: multiplying the loss (hence every gradient) by c <> 0 and putting scale(1/c) in front of any optimiser changes nothing in exact arithmetic, NaN and infinite gradients included: same parameters, same states, same failures. *)
Lemma loss_scaling : forall `{P : Platform} (c : R) (ts : list GT) (grad scaled : nat -> tree tensor -> tree tensor) (p : tree tensor), c <> 0 ->
  trwf p -> keeps p (chain_gt ts) grad ->
  (forall i q, like p q -> elementwise_of (fun d _ y z => z = fmul d (Fin c) y) p q (grad i q) (scaled i q)) ->
  exists a, init (scale (Fin (/ c))) p = Ok a /\ forall n, fit (chain_gt (scale (Fin (/ c)) :: ts)) scaled n p = with_front a (fit (chain_gt ts) grad n p).
Proof.
  intros P c ts grad scaled p Hc Wp Hk Hg. apply (@unscale (XROps P) (Fin (/ c)) ts scaled grad p Wp Hk).
  intros i q Lq. destruct (Hg i q Lq) as (H1 & H2 & H3). split; [exact H2|]. split; [exact H1|]. intros pos x y Ex Ey.
  destruct (elt (grad i q) pos) as [z|] eqn:Ez.
  - exists z. split; [reflexivity|]. destruct (H3 pos x z Ex Ez) as (y' & Ey' & E). nx. rewrite Ey in Ey'. injection Ey' as <-. rewrite E. cbn [fmul fcast XROps]. symmetry. now apply xmul_inv.
  - exfalso. destruct H1 as (A1 & W1), H2 as (A2 & W2). destruct (tree_gzip _ _ (eq_trans A1 (eq_sym A2)) W1 W2) as (V & _ & _ & E1 & E2). rewrite <- E1, elt_emapt in Ez. rewrite <- E2, elt_emapt in Ey. destruct (elt V pos); discriminate.
Qed.
(** The float [y'] is exactly 2^k times the float [y]: same zeros, infinities and NaN. *)
Definition times_pow2 (k : Z) (y y' : fl) : Prop :=
  match y, y' with
  | Zr s, Zr t | If s, If t => s = t
  | Nz r, Nz r' => r' = r * bpow radix2 k
  | Na, Na => True
  | _, _ => False
  end.
Lemma unscale_float d k y y' : in_format d y -> (SpecFloat.emin (fprec d) (femax d) <= - k < femax d)%Z -> times_pow2 k y y' ->
  y = mul_ (fprec d) (femax d) (cast_ d (Nz (bpow radix2 (- k)))) y'.
Proof.
  intros Wy (K1 & K2) H. set (b := bpow radix2 (- k)). assert (Hb : 0 < b) by apply bpow_gt_0.
  assert (Wb : in_format d (Nz b)). { split; [lra|]. split; [now apply fmt_bpow|]. rewrite Rabs_pos_eq by lra. now apply bpow_lt. }
  rewrite (cast_id d _ Wb). destruct y as [s|r|s|], y' as [t|r'|t|]; try easy; cbn [times_pow2] in H.
  - subst t. cbn [mul_ fneg_ fval]. rewrite Rlt_bool_false by lra. rewrite Rmult_0_r. rewrite rto_id; [|apply fmt_0|rewrite Rabs_R0; apply top_pos]. unfold fmk. rewrite Req_bool_true by reflexivity. now destruct s.
  - subst r'. destruct Wy as (N & Fr & Hr). cbn [mul_ fneg_ fval]. assert (E : b * (r * bpow radix2 k) = r). { unfold b. rewrite (Rmult_comm r), <- Rmult_assoc, <- bpow_plus. replace (- k + k)%Z with 0%Z by lia. cbn. lra. }
    rewrite E. rewrite rto_id by assumption. unfold fmk. now rewrite Req_bool_false.
  - subst t. cbn [mul_ fneg_]. rewrite Rlt_bool_false by lra. now destruct s.
Qed.
(*@ C96_float_loss_scaling : in IEEE arithmetic, with the scale a power of two: if every scaled gradient is exactly 2^k times the gradient (no overflow or underflow happened in scaling the loss), scale(2^-k) in front of any optimiser gives bit for bit the run without loss scaling, for any dtypes that can represent 2^-k. *)
Lemma float_loss_scaling : forall `{L : Libm} (k : Z) (ts : list (@GT (FlOps L))) (grad scaled : nat -> tree (gt fl) -> tree (gt fl)) (p : tree (gt fl)),
  trwf p -> @keeps (FlOps L) p (@chain_gt (FlOps L) ts) grad ->
  (forall pos x, elt p pos = Some x -> (SpecFloat.emin (fprec (leafdt p pos)) (femax (leafdt p pos)) <= - k < femax (leafdt p pos))%Z) ->
  (forall i q, @like (FlOps L) p q -> @elementwise_of (FlOps L) (fun d _ y y' => in_format d y /\ times_pow2 k y y') p q (grad i q) (scaled i q)) ->
  exists a, @init (FlOps L) (@scale (FlOps L) (Nz (bpow radix2 (- k)))) p = Ok a /\
    forall n, @fit (FlOps L) (@chain_gt (FlOps L) (@scale (FlOps L) (Nz (bpow radix2 (- k))) :: ts)) scaled n p = @with_front (FlOps L) a (@fit (FlOps L) (@chain_gt (FlOps L) ts) grad n p).
Proof.
  intros L k ts grad scaled p Wp Hk Hd Hg. apply (@unscale (FlOps L) (Nz (bpow radix2 (- k))) ts scaled grad p Wp Hk).
  intros i q Lq. destruct (Hg i q Lq) as (H1 & H2 & H3). split; [exact H2|]. split; [exact H1|]. intros pos x y Ex Ey.
  destruct (elt (grad i q) pos) as [z|] eqn:Ez.
  - exists z. split; [exact Ez|]. destruct (H3 pos x z Ex Ez) as (y' & Ey' & W & E). change (@F (FlOps L)) with fl in *. rewrite Ey' in Ey. injection Ey as ->. clear Ey'. cbn [fmul fcast FlOps].
    destruct (elt p pos) as [x0|] eqn:Ep; [|exfalso; destruct H1 as (A1 & W1); destruct (tree_gzip _ _ A1 W1 Wp) as (V & _ & _ & E1 & E2); rewrite <- E1, elt_emapt in Ez; rewrite <- E2, elt_emapt in Ep; destruct (elt V pos); discriminate].
    exact (unscale_float _ k z y W (Hd pos x0 Ep) E).
  - exfalso. destruct H1 as (A1 & W1), H2 as (A2 & W2). destruct (tree_gzip _ _ (eq_trans A1 (eq_sym A2)) W1 W2) as (V & _ & _ & E1 & E2). rewrite <- E1, elt_emapt in Ez. rewrite <- E2, elt_emapt in Ey. destruct (elt V pos); discriminate.
Qed.

(** ** Optimisers that absorb the scale of the loss in their hyper-parameters *)
Lemma rvals_ext `{P : Platform} (p x y : tree (gt XR)) : point_of p x -> point_of p y -> rvals x = rvals y -> x = y.
Proof.
  intros ((Ax & Wx) & Fx) ((Ay & Wy) & Fy) E. assert (Ev : vals x = vals y) by (rewrite (isfin_map _ Fx), (isfin_map _ Fy); unfold rvals in E; now rewrite E).
  destruct (tree_gzip x y (eq_trans Ax (eq_sym Ay)) Wx Wy) as (V & _ & _ & <- & <-). apply emapt_ext_in. intros l v Hl Hv.
  assert (G : forall (B C : Type) (h : B -> C) (V : tree (gt B)), vals (emapt (fun _ => h) V) = map h (vals V)).
  { intros B C h V0. unfold vals, emapt. rewrite leaves_tmap, map_map. rewrite concat_map, map_map. reflexivity. }
  rewrite !G in Ev. assert (Hin : In v (vals V)) by (unfold vals; apply in_concat; exists (dat l); split; [now apply in_map|exact Hv]).
  clear -Ev Hin. induction (vals V) as [|w W IH]; [easy|]. cbn in Ev. injection Ev as E1 E2. destruct Hin as [->|Hin]; [exact E1|now apply IH].
Qed.
(** The gradients [grad'] are [c] times the gradients [grad]. *)
Definition times_loss `{P : Platform} (p : tree (gt XR)) (c : R) (grad grad' : tree (gt XR) -> tree (gt XR)) : Prop :=
  forall x, P_regret.point_of p x -> P_regret.point_of p (grad x) /\ P_regret.point_of p (grad' x) /\ rvals (grad' x) = map (Rmult c) (rvals (grad x)).
(** Both optimisers run without failing and go through the same parameters. *)
Definition same_run `{P : Platform} (p : tree (gt XR)) (n : nat) (T : GT) (grad : tree (gt XR) -> tree (gt XR)) (T' : GT) (grad' : tree (gt XR) -> tree (gt XR)) : Prop :=
  exists s0 s0' qs sf sf', init T p = Ok s0 /\ init T' p = Ok s0' /\ length qs = n /\ minimise T grad n s0 p = Ok (qs, sf) /\ minimise T' grad' n s0' p = Ok (qs, sf').
Lemma same_runs `{P : Platform} (c : R) (T T' : @GT (XROps P)) (dir dir' : (nat -> R) -> nat -> R) grad grad' p n :
  @emits P true T (fun g _ n y => y = Fin (dir g n)) -> @emits P true T' (fun g _ n y => y = Fin (dir' g n)) ->
  (forall g g' n, (forall i, (i <= n)%nat -> g' i = c * g i) -> dir' g' n = dir g n) ->
  trwf p -> finite_tree p -> times_loss p c grad grad' -> same_run p n T grad T' grad'.
Proof.
  intros HT HT' Hd Wp Fp Hg.
  destruct (minimise_vec T dir grad p HT Wp Fp (fun x Hx => proj1 (Hg x Hx)) n) as (s0 & qs & sf & Ei & El & Hl & Hq & Hs).
  destruct (minimise_vec T' dir' grad' p HT' Wp Fp (fun x Hx => proj1 (proj2 (Hg x Hx))) n) as (s0' & qs' & sf' & Ei' & El' & Hl' & Hq' & Hs').
  assert (Hpp : point_of p p) by (split; [split; [reflexivity|exact Wp]|exact Fp]).
  assert (HP : forall t, (t <= n)%nat -> point_of p (nth t (p :: qs) p)). { intros t Ht. destruct t; [exact Hpp|]. cbn [nth]. rewrite Forall_forall in Hq. apply Hq. nx. apply nth_In. lia. }
  assert (HP' : forall t, (t <= n)%nat -> point_of p (nth t (p :: qs') p)). { intros t Ht. destruct t; [exact Hpp|]. cbn [nth]. rewrite Forall_forall in Hq'. apply Hq'. nx. apply nth_In. lia. }
  assert (K : forall t, (t <= n)%nat -> nth t (p :: qs') p = nth t (p :: qs) p).
  { intros t. induction t as [t IH] using lt_wf_ind. intros Ht. destruct t as [|t]; [reflexivity|]. apply (rvals_ext p); [now apply HP'|now apply HP|].
    apply (nth_ext _ _ 0 0); [exact (eq_trans (rvals_length p _ Wp (HP' _ Ht)) (eq_sym (rvals_length p _ Wp (HP _ Ht))))|]. intros i Hi. rewrite (rvals_length p _ Wp (HP' _ Ht)) in Hi.
    pose proof (Hs i t Hi ltac:(lia)) as E. pose proof (Hs' i t Hi ltac:(lia)) as E'. unfold pt in E, E'. nx. rewrite E, E'. f_equal; [now rewrite IH by lia|]. apply Hd. intros j Hj. rewrite IH by lia.
    destruct (Hg _ (HP j ltac:(lia))) as (_ & _ & ->). rewrite (nth_indep _ 0 (c * 0)); [apply map_nth|]. rewrite map_length, (rvals_length p _ Wp); [exact Hi|]. apply Hg, HP. lia. }
  assert (Eq : qs' = qs). { apply (nth_ext _ _ p p); [nx; lia|]. intros t Ht. nx. exact (K (S t) ltac:(lia)). }
  rewrite Eq in El'. exists s0, s0', qs, sf, sf'. auto.
Qed.
Lemma sum_f_scal c f g n : (forall i, (i <= n)%nat -> g i = c * f i) -> sum_f_R0 g n = c * sum_f_R0 f n.
Proof. intros H. rewrite scal_sum. apply sum_eq. intros i Hi. rewrite H by exact Hi. ring. Qed.
Lemma adam_scaled c b1 b2 eps er g g' n : 0 < c -> 0 <= b1 < 1 -> 0 <= b2 < 1 -> 0 < eps -> 0 <= er -> (forall i, (i <= n)%nat -> g' i = c * g i) -> adam_dir b1 b2 (c * eps) (c * c * er) g' n = adam_dir b1 b2 eps er g n.
Proof.
  intros Hc H1 H2 He Hr Hg. unfold adam_dir. cbn zeta.
  rewrite (sum_f_scal c (fun i => b1 ^ (n - i) * g i) (fun i => b1 ^ (n - i) * g' i)) by (intros i Hi; rewrite Hg by exact Hi; ring).
  rewrite (sum_f_scal (c * c) (fun i => b2 ^ (n - i) * (g i * g i)) (fun i => b2 ^ (n - i) * (g' i * g' i))) by (intros i Hi; rewrite Hg by exact Hi; ring).
  pose proof (bc_low b1 n H1) as C1. pose proof (bc_low b2 n H2) as C2. set (S1 := sum_f_R0 _ n). set (S2 := sum_f_R0 _ n). set (c1 := 1 - b1 ^ _) in *. set (c2 := 1 - b2 ^ _) in *.
  replace ((1 - b2) * (c * c * S2) / c2 + c * c * er) with ((c * c) * ((1 - b2) * S2 / c2 + er)) by (field; lra).
  assert (N2 : 0 <= (1 - b2) * S2 / c2 + er). { assert (0 <= S2) by (apply cond_pos_sum; intros k; apply Rmult_le_pos; [apply pow_le; lra|apply Rle_0_sqr]). assert (0 <= (1 - b2) * S2 / c2) by (apply Rmult_le_pos; [apply Rmult_le_pos; lra|left; apply Rinv_0_lt_compat; lra]). lra. }
  rewrite sqrt_mult, sqrt_square by nra. pose proof (sqrt_pos ((1 - b2) * S2 / c2 + er)). set (D := sqrt _) in *. assert (0 <= c * D) by nra. assert (0 < c * eps) by nra. assert (DD : D + eps <> 0) by lra. assert (CD : c * D + c * eps <> 0) by lra. assert (c1 <> 0) by lra. clearbody D c1. field. auto.
Qed.
(*@ C96_adam_units : adam absorbs the scale of the loss in eps: training on c times the loss with eps multiplied by c and eps_root by c^2 (c > 0) goes through exactly the same parameters. *)
Lemma adam_units : forall `{P : Platform} (L : lrate) (lr : Z -> R) (b1 b2 eps er c : R) (p : tree tensor) grad grad' n, (forall k, rate L k = Fin (lr k)) ->
  0 <= b1 < 1 -> 0 <= b2 < 1 -> 0 < eps -> 0 <= er -> 0 < c -> trwf p -> finite_tree p -> times_loss p c grad grad' ->
  exists T T', adam L (Fin b1) (Fin b2) (Fin eps) (Fin er) = Ok T /\ adam L (Fin b1) (Fin b2) (Fin (c * eps)) (Fin (c * c * er)) = Ok T' /\ same_run p n T grad T' grad'.
Proof.
  intros P L lr b1 b2 eps er c p grad grad' n HL H1 H2 He Hr Hc Wp Fp Hg.
  destruct (alias_closed_forms L lr b1 b2 eps er 5 0 HL) as ((T & ET & HE) & _); [lra|lra|lra|lra|lra|lra|].
  destruct (alias_closed_forms L lr b1 b2 (c * eps) (c * c * er) 5 0 HL) as ((T' & ET' & HE') & _); [lra|lra|nra|apply Rmult_le_pos; [nra|exact Hr]|lra|lra|].
  exists T, T'. split; [exact ET|]. split; [exact ET'|]. eapply (same_runs c _ _ _ _ _ _ _ _ HE HE'); try assumption. intros g g' m Hgg. cbn beta. f_equal. now apply adam_scaled.
Qed.

Lemma rss_scaled c a0 eps g g' n : 0 < c -> 0 <= a0 -> 0 < eps -> (forall i, (i <= n)%nat -> g' i = c * g i) -> rss_dir (c * c * a0) (c * c * eps) g' n = rss_dir a0 eps g n.
Proof.
  intros Hc Ha He Hg. unfold rss_dir. rewrite (sum_f_scal (c * c) (fun i => g i * g i) (fun i => g' i * g' i)) by (intros i Hi; rewrite Hg by exact Hi; ring). rewrite (Hg n) by lia.
  assert (0 <= sum_f_R0 (fun i => g i * g i) n) by (apply cond_pos_sum; intros k; apply Rle_0_sqr). set (S2 := sum_f_R0 _ n) in *.
  replace (c * c * a0 + c * c * S2 + c * c * eps) with ((c * c) * (a0 + S2 + eps)) by ring. rewrite sqrt_mult, sqrt_square by nra.
  assert (0 < sqrt (a0 + S2 + eps)) by (apply sqrt_lt_R0; lra). field. split; lra.
Qed.
(*@ C96_adagrad_units : adagrad: initial accumulator and eps multiplied by c^2 absorb a factor c > 0 of the loss. *)
Lemma adagrad_units : forall `{P : Platform} (L : lrate) (lr : Z -> R) (a0 eps c : R) (p : tree tensor) grad grad' n, (forall k, rate L k = Fin (lr k)) ->
  0 <= a0 -> 0 < eps -> 0 < c -> trwf p -> finite_tree p -> times_loss p c grad grad' ->
  exists T T', adagrad L (Fin a0) (Fin eps) = Ok T /\ adagrad L (Fin (c * c * a0)) (Fin (c * c * eps)) = Ok T' /\ same_run p n T grad T' grad'.
Proof.
  intros P L lr a0 eps c p grad grad' n HL Ha He Hc Wp Fp Hg. assert (Hcc : 0 < c * c) by nra.
  destruct (alias_closed_forms L lr 0 0 eps 0 5 a0 HL) as (_ & _ & (T & ET & HE) & _); [lra|lra|lra|lra|lra|lra|].
  destruct (alias_closed_forms L lr 0 0 (c * c * eps) 0 5 (c * c * a0) HL) as (_ & _ & (T' & ET' & HE') & _); [lra|lra|nra|lra|lra|nra|].
  exists T, T'. split; [exact ET|]. split; [exact ET'|]. eapply (same_runs c _ _ _ _ _ _ _ _ HE HE'); try assumption. intros g g' m Hgg. cbn beta. f_equal. now apply rss_scaled.
Qed.
Lemma rms_scaled c b eps v0 ce g g' n : 0 < c -> 0 <= b < 1 -> 0 < eps -> 0 <= v0 -> (forall i, (i <= n)%nat -> g' i = c * g i) -> rms_dir b (c * c * eps) (c * c * v0) ce g' n = rms_dir b eps v0 ce g n.
Proof.
  intros Hc Hb He Hv Hg. unfold rms_dir. cbn zeta. rewrite (Hg n) by lia.
  rewrite (sum_f_scal c (fun i => b ^ (n - i) * g i) (fun i => b ^ (n - i) * g' i)) by (intros i Hi; rewrite Hg by exact Hi; ring).
  rewrite (sum_f_scal (c * c) (fun i => b ^ (n - i) * (g i * g i)) (fun i => b ^ (n - i) * (g' i * g' i))) by (intros i Hi; rewrite Hg by exact Hi; ring).
  set (S1 := sum_f_R0 (fun i => b ^ (n - i) * g i) n). set (S2 := sum_f_R0 _ n). set (mu := if ce then (1 - b) * S1 else 0).
  replace (if ce then (1 - b) * (c * S1) else 0) with (c * mu) by (unfold mu; destruct ce; ring).
  replace (b ^ S n * (c * c * v0) + (1 - b) * (c * c * S2) - c * mu * (c * mu) + c * c * eps) with ((c * c) * (b ^ S n * v0 + (1 - b) * S2 - mu * mu + eps)) by ring.
  assert (V : 0 < b ^ S n * v0 + (1 - b) * S2 - mu * mu + eps).
  { pose proof (ema_jensen b v0 g n ltac:(lra) Hv) as HJ. unfold ema_of in HJ. change (wsum b g n) with S1 in HJ. change (wsum b (fun i => g i * g i) n) with S2 in HJ. pose proof (Rle_0_sqr ((1 - b) * S1)) as Q. unfold Rsqr in Q. unfold mu. destruct ce; lra. }
  rewrite sqrt_mult, sqrt_square by nra. assert (0 < sqrt (b ^ S n * v0 + (1 - b) * S2 - mu * mu + eps)) by (now apply sqrt_lt_R0). set (D := sqrt _) in *. clearbody D. field. split; lra.
Qed.

Lemma momentum_ext m nest f g n : (forall i, (i <= n)%nat -> f i = g i) -> momentum_of m nest f n = momentum_of m nest g n.
Proof.
  intros H. unfold momentum_of. destruct m as [b|]; [|apply H; lia]. cbn zeta. rewrite (sum_eq (fun i => b ^ (n - i) * f i) (fun i => b ^ (n - i) * g i)) by (intros i Hi; now rewrite H). now rewrite (H n) by lia.
Qed.
Lemma momentum_scal m nest c g g' n : (forall i, (i <= n)%nat -> g' i = c * g i) -> momentum_of m nest g' n = c * momentum_of m nest g n.
Proof.
  intros H. unfold momentum_of. destruct m as [b|]; [|apply H; lia]. cbn zeta. rewrite (sum_f_scal c (fun i => b ^ (n - i) * g i) (fun i => b ^ (n - i) * g' i)) by (intros i Hi; rewrite H by exact Hi; ring). rewrite (H n) by lia. destruct nest; ring.
Qed.
(*@ C96_rmsprop_units : rmsprop, centered or not, with or without momentum: eps and the initial scale multiplied by c^2 absorb a factor c > 0 of the loss. *)
Lemma rmsprop_units : forall `{P : Platform} (L : lrate) (lr : Z -> R) (b eps v0 c : R) (centered : bool) (m : option R) (nest : bool) (p : tree tensor) grad grad' n, (forall k, rate L k = Fin (lr k)) ->
  0 <= b < 1 -> 0 < eps -> 0 <= v0 -> 0 < c -> trwf p -> finite_tree p -> times_loss p c grad grad' ->
  exists T T', rmsprop L (Fin b) (Fin eps) (Fin v0) centered (option_map Fin m) nest = Ok T /\ rmsprop L (Fin b) (Fin (c * c * eps)) (Fin (c * c * v0)) centered (option_map Fin m) nest = Ok T' /\ same_run p n T grad T' grad'.
Proof.
  intros P L lr b eps v0 c ce m nest p grad grad' n HL Hb He Hv Hc Wp Fp Hg. assert (Hcc : 0 < c * c) by nra.
  destruct (rmsprop_closed_form L lr b eps v0 ce m nest HL Hb He Hv) as (T & ET & HE).
  destruct (rmsprop_closed_form L lr b (c * c * eps) (c * c * v0) ce m nest HL Hb ltac:(nra) ltac:(nra)) as (T' & ET' & HE').
  exists T, T'. split; [exact ET|]. split; [exact ET'|]. eapply (same_runs c _ _ _ _ _ _ _ _ HE HE'); try assumption. intros g g' k Hgg. cbn beta. apply momentum_ext. intros i Hi. f_equal. apply rms_scaled; try assumption. intros j Hj. apply Hgg. lia.
Qed.
(*@ C96_sgd_units : sgd, with any momentum, nesterov or not: dividing every learning rate by c <> 0 absorbs a factor c of the loss. *)
Lemma sgd_units : forall `{P : Platform} (L L' : lrate) (lr : Z -> R) (c : R) (m : option R) (nest : bool) (p : tree tensor) grad grad' n, (forall k, rate L k = Fin (lr k)) -> (forall k, rate L' k = Fin (lr k / c)) ->
  c <> 0 -> trwf p -> finite_tree p -> times_loss p c grad grad' ->
  exists T T', sgd L (option_map Fin m) nest = Ok T /\ sgd L' (option_map Fin m) nest = Ok T' /\ same_run p n T grad T' grad'.
Proof.
  intros P L L' lr c m nest p grad grad' n HL HL' Hc Wp Fp Hg.
  destruct (sgd_emits L lr m nest HL) as (T & ET & HE). destruct (sgd_emits L' (fun k => lr k / c) m nest HL') as (T' & ET' & HE').
  exists T, T'. split; [exact ET|]. split; [exact ET'|]. eapply (same_runs c _ _ _ _ _ _ _ _ HE HE'); try assumption. intros g g' k Hgg. cbn beta. rewrite (momentum_scal m nest c g g' k Hgg). field. exact Hc.
Qed.
(*@ C96_radam_not_invariant : radam does not absorb the scale of the loss, whatever eps and eps_root: its first update is - lr times the gradient itself. *)
Lemma radam_first : forall `{P : Platform} (L : lrate) (lr : Z -> R) (b1 b2 eps er th : R) (p : tree tensor) (g : tree tensor), (forall k, rate L k = Fin (lr k)) ->
  0 <= b1 < 1 -> 0 <= b2 < 1 -> 0 < eps -> 0 <= er -> 4 < th -> trwf p -> like p g ->
  exists T outs, radam L (Fin b1) (Fin b2) (Fin eps) (Fin er) (Fin th) = Ok T /\ trains T p [(g, None)] outs /\
    forall pos x, elt g pos = Some (Fin x) -> oelt outs 0 pos = Some (Fin (- lr 0%Z * x)).
Proof.
  intros P L lr b1 b2 eps er th p g HL H1 H2 He Hr Ht Wp Lg.
  destruct (alias_closed_forms L lr b1 b2 eps er th 0 HL) as (_ & _ & _ & (T & ET & HE) & _); [lra|lra|lra|lra|lra|lra|].
  destruct (HE p [(g, None)] Wp) as (outs & Ho & _ & _ & Hn); [constructor; [split; [exact Lg|discriminate]|constructor]|]. exists T, outs. split; [exact ET|]. split; [exact Ho|].
  intros pos x Hx. destruct (Hn 0%nat pos (fun _ => x) (fun _ => 0)) as (y & Ey & Hy); [cbn; lia|intros [|i] Hi; [exact Hx|lia]|discriminate|]. rewrite Ey. f_equal. rewrite Hy by lia.
  assert (E0 : count_at 0 = 0%Z) by reflexivity. rewrite E0. f_equal. f_equal. unfold radam_dir. cbn zeta. cbn [sum_f_R0 Nat.sub pow INR].
  match goal with |- (if Rlt_dec ?r _ then _ else _) = _ => assert (Er : r = 1) by (field; lra); destruct (Rlt_dec r th) as [_|N]; [|rewrite Er in N; lra] end. field. lra.
Qed.

(** ** Weight decay *)
(*@ C97_optimisers : the hypothesis on the optimiser of C96 and C97 holds for every pipeline of C87. *)
Lemma pipeline_keeps : forall `{O : Ops} (np : bool) (p : tree tensor) (T : GT) (grad : nat -> tree tensor -> tree tensor),
  pipeline np p T -> trwf p -> (forall i q, like p q -> like p (grad i q)) -> keeps p T grad.
Proof.
  intros O np p T grad HT Wp Hg i q s E. destruct (pipelines_train np p T grad i HT Wp Hg) as (s0 & q' & s' & _ & E' & Lq & _). rewrite E in E'. injection E' as <- <-. exact Lq.
Qed.
Lemma minimise_snoc `{O : Ops} (T : GT) grad : forall n s q, minimise T grad (S n) s q =
  (let* (qs, s1) := minimise T grad n s q in let* (u, s2) := update T (grad (last qs q)) s1 (Some (last qs q)) in let* q' := apply_updates (last qs q) u in Ok (qs ++ [q'], s2)).
Proof.
  induction n as [|n IH]; intros s q.
  - cbn [minimise rbind last app]. destruct (update T (grad q) s (Some q)) as [[u s1]|]; [|reflexivity]. cbn [rbind]. destruct (apply_updates q u); reflexivity.
  - change (minimise T grad (S (S n)) s q) with (let* (u, s') := update T (grad q) s (Some q) in let* q' := apply_updates q u in let* (qs, sf) := minimise T grad (S n) s' q' in Ok (q' :: qs, sf)).
    cbn [minimise]. destruct (update T (grad q) s (Some q)) as [[u s']|]; [|reflexivity]. cbn [rbind]. destruct (apply_updates q u) as [q'|]; [|reflexivity]. cbn [rbind].
    change (let* (u0, s'0) := update T (grad q') s' (Some q') in let* q'0 := apply_updates q' u0 in let* (qs, sf) := minimise T grad n s'0 q'0 in Ok (q'0 :: qs, sf)) with (minimise T grad (S n) s' q').
    rewrite IH. destruct (minimise T grad n s' q') as [[qs s1]|]; [|reflexivity]. cbn [rbind]. rewrite last_cons'.
    destruct (update T (grad (last qs q')) s1 (Some (last qs q'))) as [[u2 s2]|]; [|reflexivity]. cbn [rbind]. destruct (apply_updates (last qs q') u2); reflexivity.
Qed.
Lemma fit_minimise `{O : Ops} (T : GT) grad p s0 : init T p = Ok s0 -> forall n qs sf, minimise T grad n s0 p = Ok (qs, sf) -> fit T (fun _ => grad) n p = Ok (last qs p, sf).
Proof.
  intros Hi. induction n as [|n IH]; intros qs sf E.
  - cbn in E. injection E as <- <-. cbn [fit]. now rewrite Hi.
  - rewrite minimise_snoc in E. destruct (minimise T grad n s0 p) as [[q1 s1]|] eqn:E1; [|discriminate]. cbn [rbind] in E. cbn [fit]. rewrite (IH _ _ eq_refl). cbn [rbind].
    destruct (update T (grad (last q1 p)) s1 (Some (last q1 p))) as [[u s2]|]; [|discriminate]. cbn [rbind] in *. destruct (apply_updates (last q1 p) u) as [q'|]; [|discriminate]. cbn [rbind] in *. injection E as <- <-. now rewrite last_last.
Qed.
(** All elements zero. *)
Definition no_gradient `{P : Platform} (p : tree (gt XR)) (zero : tree (gt XR) -> tree (gt XR)) : Prop :=
  forall x, @like (XROps P) p x -> @like (XROps P) p (zero x) /\ forall pos y, elt (zero x) pos = Some y -> y = Fin 0.
(*@ C97_adam_l2 : with no data gradient at all, L2 regularisation through adam (weight decay put before it) of any strength weight_decay > 0 goes through exactly the parameters adam goes through on the loss |x|^2/2 with eps divided by weight_decay and eps_root by its square: the strength of the regularisation acts only by rescaling eps. *)
Lemma adam_l2 : forall `{P : Platform} (L : lrate) (lr : Z -> R) (b1 b2 eps er wd : R) (p : tree tensor) zero n, (forall k, rate L k = Fin (lr k)) ->
  0 <= b1 < 1 -> 0 <= b2 < 1 -> 0 < eps -> 0 <= er -> 0 < wd -> trwf p -> finite_tree p -> no_gradient p zero ->
  exists q s s', fit (chain_gt [add_decayed_weights (Fin wd); scale_by_adam (Fin b1) (Fin b2) (Fin eps) (Fin er); scale_by_learning_rate L]) (fun _ => zero) n p = Ok (q, s) /\
    fit (chain_gt [scale_by_adam (Fin b1) (Fin b2) (Fin (eps / wd)) (Fin (er / (wd * wd))); scale_by_learning_rate L]) (fun _ x => x) n p = Ok (q, s').
Proof.
  intros P L lr b1 b2 eps er wd p zero n HL H1 H2 He Hr Hw Wp Fp Hz. assert (Hww : 0 < wd * wd) by nra.
  set (G := fun x : tree (gt XR) => emapt (fun _ v => xadd (Fin 0) (xmul (Fin wd) v)) x).
  assert (Hg : times_loss p wd (fun x => x) G).
  { intros x Hx. split; [exact Hx|]. destruct Hx as ((Ax & Wx) & Fx). assert (Ev : vals (G x) = map (fun v => xadd (Fin 0) (xmul (Fin wd) v)) (vals x)).
    { unfold G, vals, emapt. rewrite leaves_tmap, map_map, concat_map, map_map. reflexivity. }
    split; [split; [split; [unfold G; rewrite emapt_avals; exact Ax|unfold G; now apply emapt_wf]|]|].
    - unfold finite_tree in *. rewrite Ev, Forall_map. eapply Forall_impl; [|exact Fx]. intros v (r & ->). eexists. reflexivity.
    - unfold rvals. rewrite Ev, !map_map. apply map_ext_in. intros v Hv. unfold finite_tree in Fx. rewrite Forall_forall in Fx. destruct (Fx v Hv) as (r & ->). cbn. ring. }
  destruct (adam_units L lr b1 b2 (eps / wd) (er / (wd * wd)) wd p (fun x => x) G n HL) as (T & T' & ET & ET' & s0 & s0' & qs & sf & sf' & Ei & Ei' & _ & E & E'); try assumption; [apply Rmult_lt_0_compat; [lra|now apply Rinv_0_lt_compat]|apply Rmult_le_pos; [lra|left; now apply Rinv_0_lt_compat]|].
  replace (wd * (eps / wd)) with eps in ET' by (field; lra). replace (wd * wd * (er / (wd * wd))) with er in ET' by (field; lra).
  injection ET as <-. injection ET' as <-.
  pose proof (@fit_minimise (XROps P) _ _ p s0 Ei n qs sf E) as F1. pose proof (@fit_minimise (XROps P) _ _ p s0' Ei' n qs sf' E') as F2.
  destruct (@weight_decay_is_l2 (XROps P) (Fin wd) [@scale_by_adam (XROps P) (Fin b1) (Fin b2) (Fin eps) (Fin er); scale_by_learning_rate L] (fun _ => zero) (fun _ => G) p Wp) as (a & _ & Hf).
  - apply (@pipeline_keeps (XROps P) true); [|exact Wp|].
    + apply pl_chain_gt. repeat (apply Forall_cons; [|]); try apply Forall_nil; [apply pl_elementwise, ew_adam|apply pl_learning_rate].
    + intros _ q (Aq & Wq). unfold G. split; [rewrite emapt_avals; exact Aq|now apply emapt_wf].
  - intros _ q Lq. destruct (Hz q Lq) as (Lz & Hzero). split; [exact Lz|]. split; [destruct Lq as (Aq & Wq); unfold G; split; [rewrite emapt_avals; exact Aq|now apply emapt_wf]|].
    intros pos x y Ex Ey. unfold G. exists (xadd (Fin 0) (xmul (Fin wd) x)). split; [rewrite elt_emapt; nx; rewrite Ex; reflexivity|]. rewrite (Hzero pos y Ey). reflexivity.
  - specialize (Hf n). rewrite F2 in Hf. destruct (fit_chain_state _ _ _ _ _ _ F2) as (ss & -> & _). cbn [with_front] in Hf. eexists _, _, _. split; [exact Hf|exact F1].
Qed.

(*@ C97_adamw_decay : decoupled weight decay (adamw) with no data gradient: after n steps every parameter is its initial value times the product of 1 - lr_i weight_decay, i < n. *)
Lemma adamw_decay : forall `{P : Platform} (L : lrate) (lr : Z -> R) (b1 b2 eps er wd : R) (p : tree tensor) (gs : list (tree tensor)), (forall k, rate L k = Fin (lr k)) ->
  0 <= b1 < 1 -> 0 <= b2 < 1 -> 0 < eps -> 0 <= er -> trwf p -> finite_tree p -> Forall (fun g => like p g /\ forall y, In y (vals g) -> y = Fin 0) gs ->
  exists T s0 qs sf, adamw L (Fin b1) (Fin b2) (Fin eps) (Fin er) (Fin wd) = Ok T /\ init T p = Ok s0 /\ train_loop T s0 p gs = Ok (qs, sf) /\ length qs = length gs /\
    forall j t, (j < length (rvals p))%nat -> (t <= length gs)%nat ->
      nth j (rvals (nth t (p :: qs) p)) 0 = nth j (rvals p) 0 * fold_right Rmult 1 (map (fun i => 1 - lr (count_at i) * wd) (seq 0 t)).
Proof.
  intros P L lr b1 b2 eps er wd p gs HL H1 H2 He Hr Wp Fp Hgs.
  assert (Hg : Forall (point_of p) gs). { eapply Forall_impl; [|exact Hgs]. intros g (Lg & Hz). split; [exact Lg|]. unfold finite_tree. apply Forall_forall. intros y Hy. exists 0. now apply Hz. }
  destruct (adamw_closed_form L lr b1 b2 eps er wd HL) as (T & ET & HE); [lra|lra|lra|lra|]. exists T.
  destruct (loop_vec_q false T (fun g q n => - lr (count_at n) * adam_dir b1 b2 eps er g n - lr (count_at n) * wd * q n) HE p gs Wp Fp Hg) as (s0 & qs & sf & Ei & El & Hl & Hq & Hs). exists s0, qs, sf. repeat (split; [assumption|]).
  intros j t Hj. induction t as [|t IH]; intros Ht; [cbn [seq map fold_right]; change (nth 0 (p :: qs) p) with p; ring|].
  nx. pose proof (Hs j t Hj ltac:(lia)) as E. cbn beta in E. unfold pt in E. nx. rewrite E. specialize (IH ltac:(lia)). nx. rewrite IH.
  assert (Z : forall k, (k <= t)%nat -> nth j (rvals (nth k gs p)) 0 = 0).
  { intros k Hk. assert (Hin : In (nth k gs p) gs) by (apply nth_In; lia). rewrite Forall_forall in Hgs. destruct (Hgs _ Hin) as (_ & Hz). unfold rvals. destruct (nth_in_or_default j (map xval (vals (nth k gs p))) 0) as [Hi|Hi]; [|exact Hi].
    apply in_map_iff in Hi as (y & <- & Hy). now rewrite (Hz y Hy). }
  assert (AD : adam_dir b1 b2 eps er (fun k => nth j (rvals (nth k gs p)) 0) t = 0).
  { unfold adam_dir. cbn zeta. rewrite (sum_f_scal 0 (fun i => 0) (fun i => b1 ^ (t - i) * nth j (rvals (nth i gs p)) 0)) by (intros i Hi; rewrite Z by exact Hi; ring). unfold Rdiv. ring. }
  nx. rewrite AD. rewrite seq_S, map_app, fold_right_app. cbn [map fold_right plus].
  assert (FR : forall l a, fold_right Rmult a l = fold_right Rmult 1 l * a) by (induction l as [|v l IHl]; intros a; cbn; [ring|rewrite (IHl a); ring]).
  rewrite (FR _ ((1 - lr (count_at t) * wd) * 1)). ring.
Qed.

(** Instances. *)
Lemma leaf1_like `{O : Ops} (q : tree tensor) d x : like (Leaf (mkT d [1%nat] [x])) q -> exists y, q = Leaf (mkT d [1%nat] [y]).
Proof.
  intros (A & W). destruct q as [[dq sq lq]|k l]; cbn in A; [|discriminate]. injection A as -> ->. inversion W as [|? ? Hw _]; subst. unfold twf in Hw. cbn in Hw. destruct lq as [|y [|? ?]]; try discriminate. now exists y.
Qed.
(*@ex C96_example *)
Lemma front_example : forall `{P : Platform} (L : Libm),
  let p := Leaf (mkT F32 [1%nat] [Fin 5]) in let pf := Leaf (mkT F16 [1%nat] [Nz 5]) in
  let grad := fun (_ : nat) (q : tree (gt XR)) => q in
  let loss8 := fun (_ : nat) (q : tree (gt XR)) => emapt (fun _ y => xmul (Fin 8) y) q in
  (exists a q s, @fit (XROps P) (chain_gt [scale (Fin (/ 8)); scale (Fin (- (1)))]) loss8 3 p = Ok (q, SNode NList (a :: s)) /\ @fit (XROps P) (chain_gt [scale (Fin (- (1)))]) grad 3 p = Ok (q, SNode NList s)) /\
  (exists T T', adam (O := XROps P) (LConst (Fin 1)) (Fin (9/10)) (Fin (999/1000)) (Fin 1) (Fin 0) = Ok T /\ adam (O := XROps P) (LConst (Fin 1)) (Fin (9/10)) (Fin (999/1000)) (Fin 8) (Fin 0) = Ok T' /\ same_run p 7 T (grad 0%nat) T' (loss8 0%nat)) /\
  (exists a q s, @fit (FlOps L) (@chain_gt (FlOps L) [@scale (FlOps L) (Nz (bpow radix2 (- 3))); @identity (FlOps L)]) (fun _ _ => Leaf (mkT F16 [1%nat] [Nz 24])) 2 pf = Ok (q, SNode NList (a :: s)) /\
     @fit (FlOps L) (@chain_gt (FlOps L) [@identity (FlOps L)]) (fun _ _ => Leaf (mkT F16 [1%nat] [Nz 3])) 2 pf = Ok (q, SNode NList s)).
Proof.
  intros P L p pf grad loss8. assert (Wp : trwf p) by (repeat constructor). assert (Wf : trwf pf) by (repeat constructor).
  assert (Hpl : @pipeline (XROps P) true p (chain_gt [@scale (XROps P) (Fin (- (1)))])) by (apply pl_chain_gt; repeat constructor).
  assert (Hpf : @pipeline (FlOps L) true pf (@chain_gt (FlOps L) [@identity (FlOps L)])) by (apply pl_chain_gt; repeat constructor).
  split; [|split].
  - destruct (loss_scaling 8 [@scale (XROps P) (Fin (- (1)))] grad loss8 p ltac:(lra) Wp) as (a & _ & Hf).
    + apply (@pipeline_keeps (XROps P) true); auto.
    + intros i q (Aq & Wq). split; [split; assumption|]. split; [split; [unfold loss8; rewrite emapt_avals; exact Aq|unfold loss8; now apply emapt_wf]|]. intros pos x y Ex Ey. exists (xmul (Fin 8) y). split; [unfold loss8; rewrite elt_emapt; unfold grad in Ey; nx; rewrite Ey; reflexivity|reflexivity].
    + destruct (@pipelines_train (XROps P) true p _ grad 3 Hpl Wp ltac:(auto)) as (s0 & q & s & _ & E & _ & _). destruct (@fit_chain_state (XROps P) _ _ _ _ _ _ E) as (ss & -> & _). exists a, q, ss. split; [|exact E]. specialize (Hf 3%nat). nx. rewrite E in Hf. exact Hf.
  - destruct (adam_units (@LConst (XROps P) (Fin 1)) (fun _ => 1) (9/10) (999/1000) 1 0 8 p (grad 0%nat) (loss8 0%nat) 7) as (T & T' & E & E' & H); try lra; [reflexivity|exact Wp|repeat constructor; eexists; reflexivity| |].
    + intros x ((Ax & Wx) & Fx). destruct (@leaf1_like (XROps P) x F32 (Fin 5) (conj Ax Wx)) as (y & ->). inversion Fx as [|? ? (r & E) _]; subst.
      split; [split; [split; assumption|assumption]|]. split; [split; [split; [reflexivity|repeat constructor]|repeat constructor; eexists; reflexivity]|]. reflexivity.
    + exists T, T'. split; [exact E|]. split; [|exact H]. replace (8 * 1) with 8 in E' by ring. replace (8 * 8 * 0) with 0 in E' by ring. exact E'.
  - assert (Fm : forall m, (Z.abs m < 2 ^ 11)%Z -> m <> 0%Z -> in_format F16 (Nz (IZR m))) by (intros m H1 H2; now apply (int_format F16)).
    destruct (float_loss_scaling (L := L) 3 [@identity (FlOps L)] (fun _ _ => Leaf (mkT F16 [1%nat] [Nz 3])) (fun _ _ => Leaf (mkT F16 [1%nat] [Nz 24])) pf Wf) as (a & _ & Hf).
    + apply (@pipeline_keeps (FlOps L) true); auto. intros i q _. split; [reflexivity|repeat constructor].
    + intros [[|i] j] x Hx; [cbv; split; [discriminate|reflexivity]|cbn in Hx; destruct i; discriminate].
    + intros i q Lq. split; [split; [reflexivity|repeat constructor]|]. split; [split; [reflexivity|repeat constructor]|]. intros [[|k] [|j]] x y Ex Ey; cbn in Ey; try (destruct k; discriminate); try (destruct j; discriminate); try discriminate.
      injection Ey as <-. exists (Nz 24). split; [reflexivity|]. split; [now apply (Fm 3%Z)|]. cbn. lra.
    + destruct (@pipelines_train (FlOps L) true pf _ (fun _ _ => Leaf (mkT F16 [1%nat] [Nz 3])) 2 Hpf Wf) as (s0 & q & s & _ & E & _ & _); [intros i q _; split; [reflexivity|repeat constructor]|].
      destruct (@fit_chain_state (FlOps L) _ _ _ _ _ _ E) as (ss & -> & _). exists a, q, ss. split; [|exact E]. specialize (Hf 2%nat). exact (eq_trans Hf (f_equal (@with_front (FlOps L) a) E)).
Qed.
(*@ex C97_example *)
Lemma decay_example : forall `{P : Platform}, let p := Leaf (mkT F32 [2%nat] [Fin 5; Fin (-2)]) in let zero := fun x : tree (gt XR) => emapt (fun _ _ => Fin 0) x in
  trwf p /\ finite_tree p /\ no_gradient p zero /\
  exists q s s', @fit (XROps P) (chain_gt [add_decayed_weights (Fin 100); scale_by_adam (Fin (9/10)) (Fin (999/1000)) (Fin 1) (Fin 0); scale_by_learning_rate (LConst (Fin 1))]) (fun _ => zero) 4 p = Ok (q, s) /\
    @fit (XROps P) (chain_gt [scale_by_adam (Fin (9/10)) (Fin (999/1000)) (Fin (1 / 100)) (Fin (0 / (100 * 100))); scale_by_learning_rate (LConst (Fin 1))]) (fun _ x => x) 4 p = Ok (q, s').
Proof.
  intros P p zero. assert (Wp : trwf p) by (repeat constructor). assert (Fp : finite_tree p) by (repeat constructor; eexists; reflexivity). split; [exact Wp|]. split; [exact Fp|].
  assert (Hz : no_gradient p zero). { intros x (Ax & Wx). unfold zero. split; [split; [rewrite emapt_avals; exact Ax|now apply emapt_wf]|]. intros pos y. rewrite elt_emapt. intros E. unfold option_map in E. match type of E with match ?o with _ => _ end = _ => destruct o end; [now injection E as <-|discriminate]. }
  split; [exact Hz|]. apply (adam_l2 (@LConst (XROps P) (Fin 1)) (fun _ => 1)); try lra; auto.
Qed.
