(** Properties in IEEE-754 arithmetic: clipping, apply_updates, losses. *)
From Verif Require Export P_ieee.
From Coq Require Import Psatz Qreals Bool.
From Flocq Require Import Core.Core IEEE754.BinarySingleNaN.
Open Scope R_scope.
#[local] Existing Instance FlOps.
(*@header
From Flocq Require Import Core.Core IEEE754.BinarySingleNaN.
Open Scope R_scope.
#[local] Existing Instance FlOps.
*)

Local Notation fe d := (SpecFloat.fexp (fprec d) (femax d)).
Lemma cast_opp d x : in_format F64 x -> cast_ d (opp_ x) = opp_ (cast_ d x).
Proof.
  destruct x as [s|r|s|]; try reflexivity. intros (H0 & _ & _). cbn [cast_ opp_]. unfold fround_. rewrite rnd_opp, Rabs_Ropp.
  assert (Hs : Rlt_bool (- r) 0 = negb (Rlt_bool r 0)) by (do 2 case Rlt_bool_spec; intros; try reflexivity; lra). rewrite Hs.
  case Rlt_bool_spec; intros Hb; [|reflexivity]. unfold fmk. case Req_bool_spec; intros H1.
  - rewrite Req_bool_true by lra. reflexivity.
  - rewrite Req_bool_false by lra. reflexivity.
Qed.

Lemma lt_negb x y : isnan_ x = false -> isnan_ y = false -> lt_ x y = negb (le_ y x).
Proof.
  intros Hx Hy. destruct (ffin x) eqn:Ex, (ffin y) eqn:Ey.
  - unfold lt_, le_. rewrite !cmp_fin by assumption. rewrite (Rcompare_sym (fval y)). now destruct (Rcompare (fval x) (fval y)).
  - destruct y as [| |[|]|]; try discriminate; destruct x as [| |[|]|]; try discriminate; reflexivity.
  - destruct x as [| |[|]|]; try discriminate; destruct y as [| |[|]|]; try discriminate; reflexivity.
  - destruct x as [| |[|]|]; try discriminate; destruct y as [| |[|]|]; try discriminate; reflexivity.
Qed.
Lemma le_total x y : isnan_ x = false -> isnan_ y = false -> le_ x y = true \/ le_ y x = true.
Proof.
  intros Hx Hy. destruct (le_ y x) eqn:E; [now right|left]. pose proof (lt_negb x y Hx Hy) as H. rewrite E in H. unfold lt_, le_ in *.
  destruct (cmp_ x y) as [[]|]; try discriminate; reflexivity.
Qed.
Lemma eq_le x y : eq_ x y = le_ x y && le_ y x.
Proof.
  destruct (ffin x) eqn:Ex, (ffin y) eqn:Ey.
  - unfold eq_, le_. rewrite !cmp_fin by assumption. rewrite (Rcompare_sym (fval y)). now destruct (Rcompare (fval x) (fval y)).
  - destruct y as [| |[|]|]; try discriminate; destruct x as [| |[|]|]; try discriminate; reflexivity.
  - destruct x as [| |[|]|]; try discriminate; destruct y as [| |[|]|]; try discriminate; reflexivity.
  - destruct x as [| |[|]|]; try discriminate; destruct y as [| |[|]|]; try discriminate; reflexivity.
Qed.
Lemma eq_of_le x y : fleq x y -> fleq y x -> eq_ x y = true.
Proof. unfold fleq. intros H1 H2. now rewrite eq_le, H1, H2. Qed.
Lemma max_spec x y : isnan_ x = false -> isnan_ y = false -> (max_ x y = x /\ fleq y x) \/ (max_ x y = y /\ fleq x y).
Proof.
  intros Hx Hy. unfold max_. rewrite Hx, Hy, lt_negb by assumption. destruct (le_ y x) eqn:E; cbn; [now left|right]. split; [reflexivity|].
  destruct (le_total x y Hx Hy); [assumption|congruence].
Qed.
Lemma min_spec x y : isnan_ x = false -> isnan_ y = false -> (min_ x y = x /\ fleq x y) \/ (min_ x y = y /\ fleq y x).
Proof.
  intros Hx Hy. unfold min_. rewrite Hx, Hy, lt_negb by assumption. destruct (le_ x y) eqn:E; cbn; [now left|right]. split; [reflexivity|].
  destruct (le_total x y Hx Hy); [congruence|assumption].
Qed.
Lemma opp_nan x : isnan_ (opp_ x) = isnan_ x. Proof. now destruct x. Qed.
Lemma opp_le0 c : fnonneg c -> fleq (opp_ c) c.
Proof.
  destruct c as [s|r|[|]|]; cbn; try easy; intros H.
  - apply le_fin; auto. cbn. lra.
  - apply le_fin; auto. cbn. lra.
Qed.

Lemma clip_fl c x : fnonneg c ->
  let y := min_ c (max_ (opp_ c) x) in
  isnan_ y = isnan_ x /\ (isnan_ x = false -> le_ (opp_ c) y = true /\ le_ y c = true) /\
  (le_ (opp_ c) x = true -> le_ x c = true -> eq_ y x = true) /\
  (le_ c x = true -> eq_ y c = true) /\ (le_ x (opp_ c) = true -> eq_ y (opp_ c) = true).
Proof.
  intros Hc. cbn zeta. pose proof (opp_le0 c Hc) as Ho. pose proof (nonneg_nn c Hc) as Nc. assert (Nc' : isnan_ (opp_ c) = false) by now rewrite opp_nan.
  destruct (isnan_ x) eqn:Nx.
  { destruct x; try discriminate. unfold max_, min_. rewrite Nc'. cbn. rewrite Nc. cbn.
    repeat split; try discriminate; intros H; apply fleq_nn in H as (? & ?); congruence. }
  change (le_ ?a ?b = true) with (fleq a b) in *. pose proof (fleq_refl c Nc). pose proof (fleq_refl x Nx). pose proof (fleq_refl _ Nc').
  assert (T := fleq_trans). assert (Q := eq_of_le).
  destruct (max_spec (opp_ c) x Nc' Nx) as [(-> & Ha)|(-> & Ha)].
  - destruct (min_spec c (opp_ c) Nc Nc') as [(-> & Hb)|(-> & Hb)]; repeat split; eauto.
  - destruct (min_spec c x Nc Nx) as [(-> & Hb)|(-> & Hb)]; repeat split; eauto.
Qed.

(*@ C69_clip_ieee : clip(max_delta) in IEEE arithmetic of each dtype, for every gradient bit pattern and every non-negative Python float max_delta: with D = max_delta rounded to the dtype, the output is NaN exactly when the gradient is, otherwise lies in [-D, D]; it equals the gradient when that already lies in [-D, D], D when the gradient is above, -D when below (infinities included). *)
Lemma clip_ieee : forall `{L : Libm} (m : fl), in_format F64 m -> fle fzero m = true ->
  femits true (clip m) (fun d g _ n y => let D := fcast d m in
    fisnan y = fisnan (g n) /\
    (fisnan (g n) = false -> fle (fneg D) y = true /\ fle y D = true) /\
    (fle (fneg D) (g n) = true -> fle (g n) D = true -> feqb y (g n) = true) /\
    (fle D (g n) = true -> feqb y D = true) /\
    (fle (g n) (fneg D) = true -> feqb y (fneg D) = true)).
Proof.
  intros L m Hm Hp. eapply refines_femits; [apply refines_clip|]. intros d x g q n _ _. cbn zeta. unfold mout. cbn [m_fun m_step fst]. unfold clip_elt.
  cbn [fle feqb fneg fcast fmin fmax fisnan FlOps] in *. rewrite fl0 in Hp. rewrite cast_opp by assumption. apply clip_fl. apply cast_nonneg. now apply nonneg_le.
Qed.

(** ** apply_updates *)
Section Stag.
  Context (d : fdt).
  Notation ulp := (Ulp.ulp radix2 (fe d)).
  Lemma fe_lower e : (e - fprec d <= fe d e)%Z.
  Proof. unfold SpecFloat.fexp. lia. Qed.
  Lemma stag_pos x u : fmt d x -> 0 < x -> Rabs u < bpow radix2 (- fprec d - 1) * x -> rnd d (x + u) = x.
  Proof.
    intros Fx Hx Hu. apply Rabs_lt_inv in Hu. replace (bpow radix2 (- fprec d - 1)) with (bpow radix2 (- fprec d) / 2) in Hu by (unfold Zminus; rewrite bpow_plus; cbn; lra).
    pose proof (bpow_mag_gt radix2 x) as He. rewrite Rabs_pos_eq in He by lra. set (e := (mag radix2 x : Z)) in *.
    assert (Hb : bpow radix2 (- fprec d) * x < bpow radix2 (e - fprec d)).
    { unfold Zminus. rewrite bpow_plus, Rmult_comm. apply Rmult_lt_compat_r; [apply bpow_gt_0|]. exact He. }
    assert (Hulp : bpow radix2 (e - fprec d) <= ulp x).
    { rewrite ulp_neq_0 by lra. unfold cexp. fold e. apply bpow_le, fe_lower. }
    apply Rle_antisym.
    - apply round_N_le_midp; auto with typeclass_instances. rewrite succ_eq_pos by lra. lra.
    - apply round_N_ge_midp; auto with typeclass_instances. rewrite pred_eq_pos by lra. unfold pred_pos. fold e.
      case Req_bool_spec; intros Hp.
      + assert (bpow radix2 (- fprec d) * x <= bpow radix2 (fe d (e - 1))); [|lra].
        rewrite Hp, <- bpow_plus. apply bpow_le. pose proof (fe_lower (e - 1)). lia.
      + lra.
  Qed.
  Lemma stag x u : fmt d x -> Rabs u <= bpow radix2 (- fprec d - 2) * Rabs x -> rnd d (x + u) = x.
  Proof.
    intros Fx Hu. destruct (Rtotal_order x 0) as [H|[->|H]].
    - replace (x + u) with (- (- x + - u)) by ring. rewrite rnd_opp, stag_pos; [lra|now apply fmt_opp|lra|].
      rewrite Rabs_Ropp. rewrite (Rabs_left x) in Hu by assumption. eapply Rle_lt_trans; [exact Hu|]. apply Rmult_lt_compat_r; [lra|]. apply bpow_lt. lia.
    - rewrite Rabs_R0, Rmult_0_r in Hu. assert (u = 0) as -> by (apply Rabs_eq_R0; pose proof (Rabs_pos u); lra). rewrite Rplus_0_r. apply rnd_0.
    - apply stag_pos; auto. rewrite (Rabs_pos_eq x) in Hu by lra. eapply Rle_lt_trans; [exact Hu|]. apply Rmult_lt_compat_r; [lra|]. apply bpow_lt. lia.
  Qed.
End Stag.

(*@ C73_apply_updates_ieee : apply_updates on trees of the same dtypes, in IEEE arithmetic, for every bit pattern: the result has the shapes and dtypes of the parameters, and a finite parameter and update give the correctly rounded sum, +-inf on overflow; a NaN appears only when the parameter or the update is NaN or both are infinite. *)
Lemma apply_ieee : forall `{L : Libm} (p u : tree tensor), avals u = avals p -> trwf u -> trwf p ->
  exists r, apply_updates p u = Ok r /\ like p r /\
    forall pos d x y, leafdt p pos = d -> elt p pos = Some x -> elt u pos = Some y ->
    exists z, elt r pos = Some z /\ in_format d z /\
      (fisfinite x = true -> fisfinite y = true ->
         (Rabs (rnd d (fval x + fval y)) < bpow radix2 (femax d) -> fisfinite z = true /\ fval z = rnd d (fval x + fval y)) /\
         (bpow radix2 (femax d) <= Rabs (rnd d (fval x + fval y)) -> exists s, z = If s)) /\
      (fisnan z = true -> fisnan x = true \/ fisnan y = true \/ (fisfinite x = false /\ fisfinite y = false)).
Proof.
  intros L p u E Wu Wp. destruct (apply_updates_spec p u) as (r & Er & Hr & He); auto.
  { assert (Es : forall t : tree tensor, tmap shp t = tmap snd (avals t)) by (intros; unfold avals; now rewrite tmap_tmap). now rewrite !Es, E. }
  exists r. split; [exact Er|]. split; [exact Hr|]. intros pos d x y Hd Hx Hy. eexists. split.
  { rewrite (He pos x y Hx Hy). cbn zeta. rewrite (leafdt_avals u p pos E), Hd, promote_same, !flconv. reflexivity. }
  cbn [fadd fisfinite fisnan FlOps]. split; [apply add_format|]. split.
  - intros Fx Fy. rewrite add_fin by assumption. match goal with |- context [rto d ?s ?v] => destruct (rto_cases d s v) as [(Hb & ->)|(Hb & ->)] end.
    + split; [intros _; split; [apply fmk_fin|apply fmk_val]|]. intros H. exfalso. lra.
    + split; [intros H; exfalso; lra|]. eauto.
  - destruct x as [|?|[|]|], y as [|?|[|]|]; auto; cbn [add_]; try (rewrite rto_nan; discriminate); try discriminate; cbn; auto.
Qed.

(** [k] applications in a row. *)
Fixpoint apply_all `{O : Ops} (p : tree tensor) (us : list (tree tensor)) : result (tree tensor) :=
  match us with [] => Ok p | u :: r => let* q := apply_updates p u in apply_all q r end.

(*@ C73_small_updates_are_lost : however many updates are applied one after the other: if every element of every update is finite and at most 2^-(p+2) times the parameter (p the precision of the dtype: 11, 8, 24, 53 bits), the parameters never change: after any number of steps every parameter compares equal to its initial value. *)
Lemma apply_stagnates : forall `{L : Libm} (us : list (tree tensor)) (p : tree tensor), trwf p ->
  Forall (fun u => avals u = avals p /\ trwf u) us ->
  (forall pos x, elt p pos = Some x -> in_format (leafdt p pos) x /\ fisfinite x = true) ->
  Forall (fun u => forall pos x y, elt p pos = Some x -> elt u pos = Some y ->
     fisfinite y = true /\ Rabs (fval y) <= bpow radix2 (- fprec (leafdt p pos) - 2) * Rabs (fval x)) us ->
  exists r, apply_all p us = Ok r /\ like p r /\
    forall pos x, elt p pos = Some x -> exists z, elt r pos = Some z /\ feqb z x = true.
Proof.
  intros L us. induction us as [|u us IH]; intros p Wp Hus Hp Hs.
  - exists p. split; [reflexivity|]. split; [split; auto|]. intros pos x Hx. exists x. split; [exact Hx|]. destruct (Hp pos x Hx) as (_ & Hf). apply eq_of_le; apply fleq_refl; destruct x; try discriminate; reflexivity.
  - inversion Hus as [|? ? (Eu & Wu) Hus']; subst. inversion Hs as [|? ? Hu Hs']; subst.
    destruct (apply_ieee p u Eu Wu Wp) as (q & Eq & (Hav & Wq) & Hq).
    assert (HQ : forall pos x, elt p pos = Some x -> exists z, elt q pos = Some z /\ in_format (leafdt p pos) z /\ fisfinite z = true /\ fval z = fval x).
    { intros pos x Hx. destruct (Hp pos x Hx) as (Fx & Ffx). assert (exists y, elt u pos = Some y) as (y & Hy).
      { destruct (elt u pos) eqn:E; [eauto|]. exfalso. refine (elt_like u p pos (eq_sym Eu) Wu Wp _ E). congruence. }
      destruct (Hu pos x y Hx Hy) as (Ffy & Hsm). destruct (Hq pos _ x y eq_refl Hx Hy) as (z & Ez & Fz & Hv & _).
      exists z. split; [exact Ez|]. split; [exact Fz|]. destruct (Hv Ffx Ffy) as (Hv1 & _).
      rewrite stag in Hv1 by (try apply fin_fmt; assumption). apply Hv1. now apply fin_fmt. }
    assert (HP : forall pos z, elt q pos = Some z -> exists x, elt p pos = Some x).
    { intros pos z Hz. destruct (elt p pos) eqn:E; [eauto|]. exfalso. refine (elt_like p q pos Hav Wp Wq _ E). congruence. }
    destruct (IH q Wq) as (r & Er & Hr & He).
    + eapply Forall_impl; [|exact Hus']. intros a (Ha & Wa). split; [congruence|exact Wa].
    + intros pos z Hz. destruct (HP pos z Hz) as (x & Hx). destruct (HQ pos x Hx) as (z' & Hz' & Fz & Ff & _). rewrite (leafdt_avals q p pos) by congruence. replace z with z' by congruence. auto.
    + eapply Forall_impl; [|exact Hs']. intros a Ha pos z y Hz Hy. destruct (HP pos z Hz) as (x & Hx). destruct (HQ pos x Hx) as (z' & Hz' & _ & _ & Hv).
      rewrite (leafdt_avals q p pos) by congruence. replace z with z' by congruence. rewrite Hv. now apply Ha.
    + exists r. cbn [apply_all]. rewrite Eq. cbn [rbind]. split; [exact Er|]. split; [destruct Hr; split; [congruence|assumption]|].
      intros pos x Hx. destruct (HQ pos x Hx) as (z & Hz & _ & Fz & Hv). destruct (He pos z Hz) as (w & Hw & Ew). exists w. split; [exact Hw|].
      cbn [feqb FlOps] in *. destruct (Hp pos x Hx) as (_ & Fx). cbn [fisfinite FlOps] in *.
      assert (Fw : ffin w = true) by (destruct w as [| |[|]|], z as [| |[|]|]; try discriminate; reflexivity).
      rewrite eq_le in *. apply andb_prop in Ew as (E1 & E2). apply le_fin in E1; auto. apply le_fin in E2; auto.
      apply andb_true_intro. split; apply le_fin; auto; lra.
Qed.
