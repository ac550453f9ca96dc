(** IEEE-754: clip_by_global_norm. *)
From Verif Require Export P_ieee6 P_norm.
From Coq Require Import Psatz Qreals Bool.
From Flocq Require Import Core.Core IEEE754.BinarySingleNaN.
Open Scope R_scope.
#[local] Existing Instance FlOps.
(*@header
From Flocq Require Import Core.Core IEEE754.BinarySingleNaN.
Open Scope R_scope.
#[local] Existing Instance FlOps.
*)
Local Notation fe d := (SpecFloat.fexp (fprec d) (femax d)).

(** In any arithmetic: what clip_by_global_norm does to a tree whose leaves share a dtype. *)
Lemma cbgn_gen `{O : Ops} (u : tree tensor) (m : F) (d : fdt) (st : state) par :
  trwf u -> Forall (fun t => dt t = d) (leaves u) -> let gn := snd (global_norm u) in
  update (clip_by_global_norm m) u st par = Ok (tmap (emap (fun d x => if flt gn (fcast d m) then x else fmul d (fdiv d x gn) (fcast d m))) u, st).
Proof.
  intros Wu Hd. cbn zeta. cbn [update clip_by_global_norm stateless].
  assert (Hg : leaves u <> [] -> fst (global_norm u) = d).
  { intros Hne. unfold global_norm. pose proof (pysum_dt d (map (fun x => (dt x, tsum (tsquare x))) (leaves u))) as Hp.
    destruct (pysum _) as [d0 s]. cbn [fst] in *. apply Hp; [apply Forall_map; exact Hd|]. destruct (leaves u); easy. }
  destruct (global_norm u) as [gd gn]. cbn [fst snd] in *.
  match goal with |- context [tmap (emap ?f) u] => rewrite (tmapM_ext _ (fun t => Ok (emap f t))) end.
  - rewrite tmapM_ok. reflexivity.
  - intros t Ht. rewrite Forall_forall in Hd. unfold trwf in Wu. rewrite Forall_forall in Wu.
    assert (gd = d) as -> by (apply Hg; intros E; rewrite E in Ht; destruct Ht).
    unfold cbgn_leaf. rewrite bin_scalar_r by now apply Wu. cbn [rbind]. rewrite (Hd t Ht), promote_same.
    unfold twhere_s, sr, emap. cbn [dt dat shp]. rewrite (Hd t Ht), promote_same. f_equal. destruct (flt gn (fcast d m)).
    + rewrite <- (Hd t Ht) at 1. rewrite astype_same. pose proof (Hd t Ht) as Et. destruct t as [a b c]. cbn in *. subst a. now rewrite map_id.
    + unfold astype, conv. cbn. rewrite (proj2 (fdt_eqb_eq d d) eq_refl). f_equal. rewrite !map_map. apply map_ext. reflexivity.
Qed.

(** ** The computed norm dominates every element *)
Lemma sqrt_sqr_pos d x : fmt d x -> 0 < x -> bpow radix2 (SpecFloat.emin (fprec d) (femax d) + fprec d - 1) <= x * x -> x <= rnd d (sqrt (rnd d (x * x))).
Proof.
  intros Fx Px Hn. pose (e := mag radix2 x : Z). destruct (mag radix2 x) as (ex & Hex). cbn in e. subst e. specialize (Hex (Rgt_not_eq _ _ Px)). rewrite Rabs_pos_eq in Hex by lra.
  assert (Ep : (1 < fprec d)%Z) by (destruct d; reflexivity).
  assert (H2e : x * x < bpow radix2 (2 * ex)). { replace (2 * ex)%Z with (ex + ex)%Z by lia. rewrite bpow_plus. pose proof (bpow_gt_0 radix2 ex). nra. }
  assert (He : (SpecFloat.emin (fprec d) (femax d) + fprec d - 1 < 2 * ex)%Z) by (apply (lt_bpow radix2); lra).
  assert (Hm : (SpecFloat.emin (fprec d) (femax d) <= ex - fprec d)%Z) by (clear - He; destruct d; unfold SpecFloat.emin in *; cbn [fprec femax] in *; lia).
  destruct (Rle_or_lt x (bpow radix2 (ex - 1))) as [Hp|Hp].
  { assert (x = bpow radix2 (ex - 1)) as -> by lra. rewrite <- bpow_plus. rewrite (rnd_id d (bpow radix2 (ex - 1 + (ex - 1)))).
    - rewrite bpow_plus, sqrt_square by apply bpow_ge_0. rewrite rnd_id by exact Fx. lra.
    - apply fmt_bpow. rewrite <- bpow_plus in Hn. apply le_bpow in Hn. lia. }
  assert (Fb : fmt d (bpow radix2 (ex - 1))).
  { apply fmt_bpow. lia. }
  assert (Eb : ulp radix2 (fe d) (bpow radix2 (ex - 1)) = bpow radix2 (ex - fprec d)).
  { rewrite ulp_bpow. f_equal. unfold SpecFloat.fexp. lia. }
  assert (Hx : bpow radix2 (ex - 1) + bpow radix2 (ex - fprec d) <= x).
  { rewrite <- Eb. pose proof (succ_le_lt radix2 (fe d) _ _ Fb Fx Hp) as S. rewrite succ_eq_pos in S by apply bpow_ge_0. exact S. }
  assert (Eu : ulp radix2 (fe d) x = bpow radix2 (ex - fprec d)).
  { rewrite ulp_neq_0 by lra. unfold cexp. rewrite (mag_unique radix2 x ex) by (rewrite Rabs_pos_eq; lra). f_equal. unfold SpecFloat.fexp. lia. }
  assert (Er : x * x - / 2 * bpow radix2 (2 * ex - fprec d) <= rnd d (x * x)).
  { pose proof (error_le_half_ulp radix2 (fe d) (fun z => negb (Z.even z)) (x * x)) as E. change (round radix2 (fe d) (Znearest (fun z => negb (Z.even z))) (x * x)) with (rnd d (x * x)) in E.
    apply Rabs_le_inv in E. assert (ulp radix2 (fe d) (x * x) <= bpow radix2 (2 * ex - fprec d)); [|lra].
    rewrite ulp_neq_0 by nra. apply bpow_le. unfold cexp. pose proof (mag_le_bpow radix2 (x * x) (2 * ex)) as M. rewrite Rabs_pos_eq in M by nra. specialize (M ltac:(nra) H2e). unfold SpecFloat.fexp. lia. }
  set (h := / 2 * bpow radix2 (ex - fprec d)).
  assert (Hh : 0 < h) by (pose proof (bpow_gt_0 radix2 (ex - fprec d)); unfold h; lra).
  assert (Hhx : 4 * h <= x) . { pose proof (bpow_gt_0 radix2 (ex - fprec d)). assert (bpow radix2 (ex - fprec d) <= bpow radix2 (ex - 1)) by (apply bpow_le; lia). unfold h. lra. }
  assert (Hs : (x - h) * (x - h) < rnd d (x * x)).
  { eapply Rlt_le_trans; [|exact Er].
    assert (P2 : bpow radix2 (2 * ex - fprec d) = 4 * h * bpow radix2 (ex - 1)).
    { unfold h. replace (4 * (/ 2 * bpow radix2 (ex - fprec d)) * bpow radix2 (ex - 1)) with (2 * (bpow radix2 (ex - fprec d) * bpow radix2 (ex - 1))) by lra. rewrite <- bpow_plus.
      replace (2 * ex - fprec d)%Z with (1 + (ex - fprec d + (ex - 1)))%Z by lia. rewrite bpow_plus. cbn. reflexivity. }
    rewrite P2. assert (x >= bpow radix2 (ex - 1) + 2 * h) by (unfold h in *; lra). nra. }
  assert (Hlt : x - h < sqrt (rnd d (x * x))).
  { rewrite <- (sqrt_square (x - h)) by lra. apply sqrt_lt_1_alt. split; [nra|exact Hs]. }
  apply (round_N_ge_midp radix2 (fe d) (fun z => negb (Z.even z)) x _ Fx).
  rewrite pred_eq_pos by lra. unfold pred_pos. rewrite (mag_unique radix2 x ex) by (rewrite Rabs_pos_eq; lra). rewrite Req_bool_false by lra.
  rewrite Eu. unfold h in Hlt. lra.
Qed.

(** What is asked of jnp.sum on non-negative numbers: any order of accumulation satisfies it. *)
Definition sum_sane (L : Libm) : Prop := forall d l, Forall (in_format d) l -> Forall fnonneg l ->
  in_format d (l_sum L d l) /\ fnonneg (l_sum L d l) /\ forall x, In x l -> fleq x (l_sum L d l).

Lemma add_comm_fl d x y : add_ (fprec d) (femax d) x y = add_ (fprec d) (femax d) y x.
Proof.
  destruct x as [s|r|[|]|], y as [t|q|[|]|]; try reflexivity; cbn [add_ fval]; rewrite (Rplus_comm _ (fval _)) || idtac; cbn [fval];
    rewrite ?(andb_comm (fneg_ (Zr s))), ?(andb_comm (fneg_ (Nz r))); try reflexivity; rewrite ?(Rplus_comm q), ?(Rplus_comm 0); reflexivity.
Qed.
Lemma add_ge' d a v : fnonneg a -> fnonneg v -> in_format d a -> fleq a (add_ (fprec d) (femax d) a v).
Proof. intros. rewrite add_comm_fl. now apply add_ge. Qed.
Lemma sqrt_fleq d x y : fnonneg x -> fleq x y -> fleq (sqrt_ (fprec d) (femax d) x) (sqrt_ (fprec d) (femax d) y).
Proof.
  intros Hx Hxy. assert (Hy : fnonneg y) by (apply nonneg_le; apply nonneg_le in Hx; now apply (fleq_trans _ x)).
  destruct (ffin x) eqn:Fx, (ffin y) eqn:Fy.
  - apply le_fin in Hxy; auto. assert (S : forall z, ffin z = true -> fnonneg z -> exists s, sqrt_ (fprec d) (femax d) z = rto d s (sqrt (fval z)) /\ sgn_ok s (sqrt (fval z))).
    { intros [s|r|s|] Fz Hz; try discriminate.
      - exists s. cbn. rewrite sqrt_0, rto_id by (try apply fmt_0; rewrite Rabs_R0; apply top_pos). unfold fmk. rewrite Req_bool_true by reflexivity. split; [reflexivity|split; lra].
      - exists false. cbn in *. rewrite Rlt_bool_false by lra. split; [reflexivity|]. apply sgn_ok_false, sqrt_pos. }
    destruct (S x Fx Hx) as (s & -> & Hs). destruct (S y Fy Hy) as (t & -> & Ht). apply rto_le; auto. apply sqrt_le_1_alt. exact Hxy.
  - destruct y as [| |[|]|]; try discriminate; cbn in Hy; try easy. pose proof (sqrt_nonneg d x Hx) as N. destruct (sqrt_ _ _ x) as [| |[|]|]; cbn in N; try easy.
  - destruct x as [| |[|]|]; try discriminate; cbn in Hx; try easy. destruct y as [| |[|]|]; try discriminate.
  - destruct x as [| |[|]|]; try discriminate; cbn in Hx; try easy. destruct y as [| |[|]|]; try discriminate. reflexivity.
Qed.
Lemma abs_le_norm1 d x : in_format d x -> ffin x = true -> bpow radix2 (SpecFloat.emin (fprec d) (femax d) + fprec d - 1) <= fval x * fval x ->
  fleq (abs_ x) (sqrt_ (fprec d) (femax d) (mul_ (fprec d) (femax d) x x)).
Proof.
  intros Ix Fx Hn. destruct x as [|r| |]; try discriminate; cbn [fval] in *; [exfalso; pose proof (bpow_gt_0 radix2 (SpecFloat.emin (fprec d) (femax d) + fprec d - 1)); lra|].
  destruct Ix as (I1 & I2 & I3). assert (Pr : 0 < Rabs r) by now apply Rabs_pos_lt.
  assert (Er : r * r = Rabs r * Rabs r) by (rewrite <- Rabs_mult, Rabs_pos_eq; nra).
  pose proof (sqrt_sqr_pos d (Rabs r) ltac:(unfold fmt; now apply generic_format_abs) Pr ltac:(now rewrite <- Er)) as S. rewrite <- Er in S.
  rewrite mul_fin by reflexivity. cbn [fval fneg_]. rewrite xorb_nilpotent. cbn [abs_].
  assert (P0 : 0 < rnd d (r * r)).
  { assert (0 <= rnd d (r * r)) by (apply rnd_ge0; nra). destruct (Req_dec (rnd d (r * r)) 0) as [E|]; [|lra]. rewrite E, sqrt_0, rnd_0 in S. lra. }
  destruct (rto_cases d false (r * r)) as [(_ & ->)|(_ & ->)]; [|reflexivity].
  unfold fmk. rewrite Req_bool_false by lra. cbn [sqrt_]. rewrite Rlt_bool_false by lra.
  destruct (rto_cases d false (sqrt (rnd d (r * r)))) as [(_ & ->)|(_ & ->)]; [|reflexivity]. apply le_fin; [reflexivity|apply fmk_fin|]. rewrite fmk_val. exact S.
Qed.

Section Norm.
  Context `{L : Libm}.
  Variable HS : sum_sane L.
  Definition leaf_ss (t : gt fl) : fl := @tsum (FlOps L) (@tsquare (FlOps L) t).
  Lemma leaf_ss_spec d (t : gt fl) : dt t = d -> Forall (fun x => isnan_ x = false) (dat t) ->
    in_format d (leaf_ss t) /\ fnonneg (leaf_ss t) /\ forall x, In x (dat t) -> fleq (mul_ (fprec d) (femax d) x x) (leaf_ss t).
  Proof.
    intros <- HN. unfold leaf_ss, tsum, tsquare. cbn [fsum FlOps].
    destruct (HS (dt t) (map (fun x => mul_ (fprec (dt t)) (femax (dt t)) x x) (dat t))) as (A & B & C).
    - apply Forall_map, Forall_forall. intros x _. apply mul_format.
    - apply Forall_map. eapply Forall_impl; [|exact HN]. intros x Hx. now apply mul_sq.
    - split; [exact A|]. split; [exact B|]. intros x Hx. apply C. exact (in_map (fun x => mul_ (fprec (dt t)) (femax (dt t)) x x) _ _ Hx).
  Qed.
  Lemma pysum_spec d (l : list (fdt * fl)) : l <> [] -> Forall (fun p => fst p = d /\ in_format d (snd p) /\ fnonneg (snd p)) l ->
    let s := snd (@pysum (FlOps L) l) in fst (@pysum (FlOps L) l) = d /\ in_format d s /\ fnonneg s /\ forall p, In p l -> fleq (snd p) s.
  Proof.
    destruct l as [|(d0, x0) l]; [easy|]. intros _ HF. apply Forall_cons_iff in HF as ((E & I0 & N0) & HF'). cbn [fst snd] in E, I0, N0. subst d0. cbn [pysum]. rewrite fl0. cbn [fcast cast_ FlOps fadd].
    assert (G : forall (l : list (fdt * fl)) (a : fl), Forall (fun p => fst p = d /\ in_format d (snd p) /\ fnonneg (snd p)) l -> in_format d a -> fnonneg a ->
      let r := fold_left (@add_scalars (FlOps L)) l (d, a) in fst r = d /\ in_format d (snd r) /\ fnonneg (snd r) /\ fleq a (snd r) /\ forall p, In p l -> fleq (snd p) (snd r)).
    { clear. induction l as [|(d1, y) l IH]; intros a HF Ia Na; cbn zeta; cbn [fold_left].
      - split; [reflexivity|]. split; [exact Ia|]. split; [exact Na|]. split; [apply fleq_refl, nonneg_nn, Na|easy].
      - apply Forall_cons_iff in HF as ((E & I1 & N1) & HF'). cbn [fst snd] in E, I1, N1. subst d1.
        assert (Ea : @add_scalars (FlOps L) (d, a) (d, y) = (d, add_ (fprec d) (femax d) a y)) by (unfold add_scalars; cbn [fst snd]; rewrite promote_same, !flconv; reflexivity).
        rewrite Ea. destruct (IH (add_ (fprec d) (femax d) a y) HF' (add_format d a y) (add_nonneg d a y Na N1)) as (A & B & C & D & E).
        split; [exact A|]. split; [exact B|]. split; [exact C|]. split.
        + eapply fleq_trans; [|exact D]. now apply add_ge'.
        + intros p [<-|Hp]; [|now apply E]. cbn [snd]. eapply fleq_trans; [|exact D]. now apply add_ge. }
    destruct (G l (add_ (fprec d) (femax d) (Zr false) x0) HF' (add_format d _ _) (add_nonneg d (Zr false) x0 I N0)) as (A & B & C & D & E).
    split; [exact A|]. split; [exact B|]. split; [exact C|]. intros p [<-|Hp]; [|now apply E]. cbn [snd]. eapply fleq_trans; [|exact D]. apply add_ge; auto. exact I.
  Qed.
  Lemma gnorm_spec d (u : tree (gt fl)) : leaves u <> [] -> Forall (fun t => dt t = d /\ Forall (fun x => isnan_ x = false) (dat t)) (leaves u) ->
    let g := snd (@global_norm (FlOps L) u) in in_format d g /\ fnonneg g /\
    forall t x, In t (leaves u) -> In x (dat t) -> fleq (sqrt_ (fprec d) (femax d) (mul_ (fprec d) (femax d) x x)) g.
  Proof.
    intros Hne HF. cbn zeta. unfold global_norm. pose proof (pysum_spec d (map (fun x => (dt x, leaf_ss x)) (leaves u))) as P. unfold leaf_ss in P.
    destruct (pysum _) as [d0 s]. cbn [fst snd] in *. destruct P as (-> & A & B & C).
    - destruct (leaves u); [easy|discriminate].
    - apply Forall_map. eapply Forall_impl; [|exact HF]. intros t (E1 & E2). cbn [fst snd]. split; [exact E1|]. destruct (leaf_ss_spec d t E1 E2) as (Q1 & Q2 & _). split; assumption.
    - cbn [fsqrt FlOps]. split; [apply sqrt_format|]. split; [now apply sqrt_nonneg|]. intros t x Ht Hx. rewrite Forall_forall in HF. destruct (HF t Ht) as (E1 & E2).
      destruct (leaf_ss_spec d t E1 E2) as (Q1 & Q2 & Q3). rewrite Forall_forall in E2. apply sqrt_fleq; [apply mul_sq, E2, Hx|]. eapply fleq_trans; [apply Q3, Hx|].
      apply (C (dt t, leaf_ss t)). apply in_map_iff. exists t. split; [reflexivity|exact Ht].
  Qed.
End Norm.

(** The smallest max_norm for which the bound is claimed: 2^-6 in float16, 2^-62 in bfloat16 and float32, 2^-510 in float64. *)
Definition min_norm_exp (d : fdt) : Z := match d with F16 => -6 | BF16 => -62 | F32 => -62 | F64 => -510 end.

Lemma cbgn_elt_bound d (x g m : fl) : in_format d x -> ffin x = true -> in_format d g -> fnonneg g -> in_format d m -> ffin m = true ->
  bpow radix2 (min_norm_exp d) <= fval m -> fleq (sqrt_ (fprec d) (femax d) (mul_ (fprec d) (femax d) x x)) g ->
  let y := if lt_ g m then x else mul_ (fprec d) (femax d) (div_ (fprec d) (femax d) x g) m in
  ffin y = true /\ le_ (abs_ y) m = true /\ (g = If false -> exists s, y = Zr s).
Proof.
  intros Ix Fx Ig Ng Im Fm Hm Hd. cbn zeta. pose proof (bpow_gt_0 radix2 (min_norm_exp d)) as Pt.
  assert (Fa : ffin (abs_ x) = true) by (destruct x; try discriminate; reflexivity). assert (Va : fval (abs_ x) = Rabs (fval x)) by (destruct x; try discriminate; cbn; rewrite ?Rabs_R0; reflexivity).
  assert (Hx : fleq (abs_ x) g \/ Rabs (fval x) <= bpow radix2 (min_norm_exp d)).
  { destruct (Rle_or_lt (bpow radix2 (SpecFloat.emin (fprec d) (femax d) + fprec d - 1)) (fval x * fval x)) as [H|H].
    - left. eapply fleq_trans; [|exact Hd]. now apply abs_le_norm1.
    - right. rewrite <- (Rabs_pos_eq (bpow radix2 (min_norm_exp d))) by lra. apply Rsqr_le_abs_0. unfold Rsqr. rewrite <- bpow_plus. left. eapply Rlt_le_trans; [exact H|]. apply bpow_le. destruct d; cbn; lia. }
  destruct (lt_ g m) eqn:El.
  - split; [exact Fx|]. split.
    + destruct Hx as [Hx|Hx].
      * apply (fleq_trans _ g); [exact Hx|]. destruct (ffin g) eqn:Fg; [apply le_fin; auto; apply lt_fin in El; auto; lra|]. destruct g as [| |[|]|], m as [| |[|]|]; cbn in *; try discriminate; easy.
      * apply le_fin; auto. lra.
    + intros ->. destruct m; discriminate.
  - assert (Hg : fleq m g).
    { assert (isnan_ g = false) by now apply nonneg_nn. assert (isnan_ m = false) by (destruct m; try discriminate; reflexivity). rewrite lt_negb in El by assumption. now apply negb_false_iff in El. }
    assert (Hxg : fleq (abs_ x) g) by (destruct Hx as [Hx|Hx]; [exact Hx|]; apply (fleq_trans _ m); [apply le_fin; auto; lra|exact Hg]).
    destruct g as [s|q|[|]|]; cbn in Ng; try easy.
    + exfalso. apply le_fin in Hg; auto. cbn in Hg. lra.
    + apply le_fin in Hg; auto. apply le_fin in Hxg; auto. cbn [fval] in Hg, Hxg. rewrite Va in Hxg. rewrite div_fin by exact Fx.
      assert (Hq : Rabs (fval x / q) <= 1).
      { unfold Rdiv. rewrite Rabs_mult, Rabs_inv, (Rabs_pos_eq q) by lra. apply Rmult_le_reg_r with q; [lra|]. rewrite Rmult_assoc, Rinv_l by lra. lra. }
      assert (T1 : 1 < top d) by (change 1 with (bpow radix2 0); apply bpow_lt; destruct d; reflexivity).
      destruct (rto_abs_le d (xorb (fneg_ x) (Rlt_bool q 0)) (fval x / q) 1 (fmt_1 d) Hq T1) as (A1 & A2). set (z := rto d _ _) in *. clearbody z. rewrite mul_fin by assumption.
      destruct (fin_fmt d m Im) as (M1 & M2). rewrite Rabs_pos_eq in M2 by lra.
      destruct (rto_abs_le d (xorb (fneg_ z) (fneg_ m)) (fval z * fval m) (fval m) M1) as (B1 & B2); auto; [rewrite Rabs_mult, (Rabs_pos_eq (fval m)) by lra; nra|].
      split; [exact B1|]. split; [|discriminate]. set (w := rto d _ _) in *. clearbody w. apply le_fin; auto; [destruct w; try discriminate; reflexivity|].
      destruct w; try discriminate; cbn in *; [lra|exact B2].
    + assert (E : exists t, div_ (fprec d) (femax d) x (If false) = Zr t) by (destruct x; try discriminate; cbn; eauto). destruct E as (t & ->).
      destruct (zr_mul d m t Fm) as (t' & ->). split; [reflexivity|]. split; [apply le_fin; auto; cbn; lra|eauto].
Qed.

(*@ C75_elements_bounded_ieee : IEEE arithmetic, clip_by_global_norm on any tree of one dtype with finite elements (any sizes, any summation order): no NaN or infinity is ever produced and no element of the result exceeds max_norm in magnitude - exactly, in spite of rounding - provided max_norm is at least 2^-6 (float16), 2^-62 (bfloat16, float32) or 2^-510 (float64). *)
Lemma cbgn_bounded_ieee : forall `{L : Libm} (u : tree tensor) (m : fl) (d : fdt) st par, sum_sane L ->
  trwf u -> Forall (fun t => dt t = d /\ Forall (fun x => in_format d x /\ ffin x = true) (dat t)) (leaves u) ->
  fisfinite (fcast d m) = true -> bpow radix2 (min_norm_exp d) <= fval (fcast d m) ->
  exists u', update (clip_by_global_norm m) u st par = Ok (u', st) /\ avals u' = avals u /\
    forall pos x, elt u pos = Some x -> exists y, elt u' pos = Some y /\ fisfinite y = true /\ fle (fabs y) (fcast d m) = true /\
      (flt (snd (global_norm u)) (fcast d m) = true -> y = x).
Proof.
  intros L u m d st par HS Wu HF Fm Hm.
  assert (Hd : Forall (fun t : gt fl => dt t = d) (leaves u)) by (eapply Forall_impl; [|exact HF]; now intros t (? & _)).
  eexists. split; [exact (cbgn_gen (O := FlOps L) u m d st par Wu Hd)|]. split; [apply emapt_avals|].
  intros pos x Hx. match goal with |- context [tmap (emap ?f) u] => change (tmap (emap f) u) with (emapt f u) end. rewrite elt_emapt.
  change (match elt u pos with Some a => Some a | None => None end) with (elt u pos). assert (Hx' := Hx). unfold elt in Hx'. destruct (nth_error (leaves u) (fst pos)) as [t|] eqn:Et; [|discriminate].
  assert (Ht : In t (leaves u)) by now apply nth_error_In in Et. assert (Hxt : In x (dat t)) by now apply nth_error_In in Hx'.
  assert (Ld : leafdt u pos = d) by (unfold leafdt; etransitivity; [exact (f_equal (fun o => match o with Some l => dt l | None => F32 end) Et)|]; rewrite Forall_forall in HF; apply HF, Ht).
  eexists. split; [etransitivity; [exact (f_equal (option_map _) Hx)|reflexivity]|]. cbn zeta. rewrite Ld.
  assert (HF' := HF). rewrite Forall_forall in HF'. destruct (HF' t Ht) as (_ & HFt). rewrite Forall_forall in HFt. destruct (HFt x Hxt) as (Ix & Fx).
  destruct (gnorm_spec (L := L) HS d u) as (G1 & G2 & G3).
  - intros E. exact (eq_ind (leaves u) (fun l => In t l) Ht [] E).
  - eapply Forall_impl; [|exact HF]. intros t' (E1 & E2). split; [exact E1|]. eapply Forall_impl; [|exact E2]. intros z (_ & Fz). destruct z; try discriminate; reflexivity.
  - cbn [fcast fle flt fabs fisfinite fmul fdiv FlOps] in *. specialize (G3 t x Ht Hxt). set (g := snd (global_norm u)) in *. clearbody g.
    destruct (cbgn_elt_bound d x g (cast_ d m) Ix Fx G1 G2 (cast_format d m) Fm Hm G3) as (A & B & C). split; [exact A|]. split; [exact B|]. intros El. rewrite El. reflexivity.
Qed.

(*@ C75_overflow_zeroes_update : (finding) if the square of a single element overflows its dtype - |x| >= 256 in float16, about 1.8e19 in float32 and bfloat16 - the computed norm is infinite and clip_by_global_norm replaces the whole update of every leaf by zeros, for any (finite, not tiny) max_norm, although the direction could have been kept. *)
Lemma cbgn_overflow : forall `{L : Libm} (u : tree tensor) (m : fl) (d : fdt) st par pos0 x0, sum_sane L ->
  trwf u -> Forall (fun t => dt t = d /\ Forall (fun x => in_format d x /\ ffin x = true) (dat t)) (leaves u) ->
  fisfinite (fcast d m) = true -> bpow radix2 (min_norm_exp d) <= fval (fcast d m) ->
  elt u pos0 = Some x0 -> fmul d x0 x0 = If false ->
  exists u', update (clip_by_global_norm m) u st par = Ok (u', st) /\
    forall pos x, elt u pos = Some x -> exists s, elt u' pos = Some (Zr s).
Proof.
  intros L u m d st par pos0 x0 HS Wu HF Fm Hm H0 Ho.
  assert (Hd : Forall (fun t : gt fl => dt t = d) (leaves u)) by (eapply Forall_impl; [|exact HF]; now intros t (? & _)).
  eexists. split; [exact (cbgn_gen (O := FlOps L) u m d st par Wu Hd)|].
  intros pos x Hx. match goal with |- context [tmap (emap ?f) u] => change (tmap (emap f) u) with (emapt f u) end. setoid_rewrite elt_emapt.
  assert (Hx' := Hx). unfold elt in Hx'. destruct (nth_error (leaves u) (fst pos)) as [t|] eqn:Et; [|discriminate].
  assert (Ht : In t (leaves u)) by now apply nth_error_In in Et. assert (Hxt : In x (dat t)) by now apply nth_error_In in Hx'.
  unfold elt in H0. destruct (nth_error (leaves u) (fst pos0)) as [t0|] eqn:Et0; [|discriminate].
  assert (Ht0 : In t0 (leaves u)) by now apply nth_error_In in Et0. assert (Hxt0 : In x0 (dat t0)) by now apply nth_error_In in H0.
  assert (Ld : leafdt u pos = d) by (unfold leafdt; etransitivity; [exact (f_equal (fun o => match o with Some l => dt l | None => F32 end) Et)|]; rewrite Forall_forall in HF; apply HF, Ht).
  assert (HF' := HF). rewrite Forall_forall in HF'. destruct (HF' t Ht) as (_ & HFt). rewrite Forall_forall in HFt. destruct (HFt x Hxt) as (Ix & Fx).
  destruct (gnorm_spec (L := L) HS d u) as (G1 & G2 & G3).
  - intros E. exact (eq_ind (leaves u) (fun l => In t l) Ht [] E).
  - eapply Forall_impl; [|exact HF]. intros t' (E1 & E2). split; [exact E1|]. eapply Forall_impl; [|exact E2]. intros z (_ & Fz). destruct z; try discriminate; reflexivity.
  - pose proof (G3 t0 x0 Ht0 Hxt0) as G0. specialize (G3 t x Ht Hxt). cbn [fcast fle flt fabs fisfinite fmul fdiv FlOps] in *. set (g := snd (global_norm u)) in *. clearbody g.
    rewrite Ho in G0. assert (Eg : g = If false) by (destruct g as [| |[|]|]; try discriminate; reflexivity).
    destruct (cbgn_elt_bound d x g (cast_ d m) Ix Fx G1 G2 (cast_format d m) Fm Hm G3) as (_ & _ & C). destruct (C Eg) as (s & Es). exists s.
    etransitivity; [exact (f_equal (option_map _) Hx)|]. cbn [option_map]. rewrite Ld. now f_equal.
Qed.

Lemma cr_sum : sum_sane cr_libm.
Proof.
  intros d l HF HN. cbn [l_sum cr_libm].
  assert (G : forall l a, Forall (in_format d) l -> Forall fnonneg l -> in_format d a -> fnonneg a -> let r := fold_left (add_ (fprec d) (femax d)) l a in
    in_format d r /\ fnonneg r /\ fleq a r /\ forall x, In x l -> fleq x r).
  { clear. induction l as [|y l IH]; intros a HF HN Ia Na; cbn zeta; cbn [fold_left].
    - split; [exact Ia|]. split; [exact Na|]. split; [apply fleq_refl, nonneg_nn, Na|easy].
    - apply Forall_cons_iff in HF as (F1 & HF). apply Forall_cons_iff in HN as (N1 & HN).
      destruct (IH (add_ (fprec d) (femax d) a y) HF HN (add_format d a y) (add_nonneg d a y Na N1)) as (A & B & C & D). split; [exact A|]. split; [exact B|]. split.
      + eapply fleq_trans; [|exact C]. now apply add_ge'.
      + intros x [<-|Hx]; [|now apply D]. eapply fleq_trans; [|exact C]. now apply add_ge. }
  destruct (G l (Zr false) HF HN I I) as (A & B & _ & C). auto.
Qed.

(*@ex C75_example *)
Lemma cbgn_overflow_example : exists u',
  update (clip_by_global_norm (O := FlOps cr_libm) (Nz 1)) (Node KList [fone1 F16 (Nz 300); fone1 F16 (Nz (-2))]) EmptyState None = Ok (u', EmptyState) /\
  (exists s, elt u' (0%nat, 0%nat) = Some (Zr s)) /\ (exists s, elt u' (1%nat, 0%nat) = Some (Zr s)).
Proof.
  assert (I300 : in_format F16 (Nz 300)) by (apply (int_format F16 300); [reflexivity|discriminate]). assert (I2 : in_format F16 (Nz (-2))) by (apply (int_format F16 (-2)); [reflexivity|discriminate]).
  assert (I1 : in_format F16 (Nz 1)) by (apply (int_format F16 1); [reflexivity|discriminate]). assert (E1 : @fcast (FlOps cr_libm) F16 (Nz 1) = Nz 1) by now apply cast_id.
  destruct (cbgn_overflow (L := cr_libm) (Node KList [fone1 F16 (Nz 300); fone1 F16 (Nz (-2))]) (Nz 1) F16 EmptyState None (0%nat, 0%nat) (Nz 300)) as (u' & H1 & H2).
  - exact cr_sum.
  - repeat constructor.
  - repeat (exact I300 || exact I2 || reflexivity || apply Forall_cons || apply Forall_nil || split).
  - etransitivity; [exact (f_equal _ E1)|reflexivity].
  - eapply Rle_trans; [|right; exact (f_equal fval (eq_sym E1))]. cbn. lra.
  - reflexivity.
  - cbn [fmul FlOps]. rewrite mul_fin by reflexivity. cbn [fval fneg_]. rewrite xorb_nilpotent.
    destruct (rto_cases F16 false (300 * 300)) as [(Hb & _)|(_ & ->)]; [exfalso|reflexivity].
    rewrite rnd_abs, Rabs_pos_eq in Hb by lra. assert (E16 : bpow radix2 16 = 65536) by reflexivity. assert (Hc : rnd F16 (bpow radix2 16) <= rnd F16 (300 * 300)) by (apply rnd_le; lra).
    rewrite rnd_id in Hc by (apply fmt_bpow; cbn; lia). change (top F16) with (bpow radix2 16) in Hb. lra.
  - exists u'. split; [exact H1|]. split; [exact (H2 (0%nat, 0%nat) (Nz 300) eq_refl)|exact (H2 (1%nat, 0%nat) (Nz (-2)) eq_refl)].
Qed.
