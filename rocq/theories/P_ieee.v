(** Properties in IEEE-754 arithmetic. *)
From Verif Require Export FlFacts P_elem P_transform.
From Coq Require Import Psatz Qreals Bool.
From Flocq Require Import Core.Core IEEE754.BinarySingleNaN.
Open Scope R_scope.
#[local] Existing Instance FlOps.
(*@header
From Flocq Require Import Core.Core IEEE754.BinarySingleNaN.
Open Scope R_scope.
#[local] Existing Instance FlOps.
*)

(** [femits np T Rel]: for every parameter tree and every history of gradients (and params) shaped
    like it, init and all updates succeed, every emitted tree has the structure, shapes and dtypes of
    the parameters, and at every element, of dtype [d], whose gradient history is g 0 .. g n (and
    parameter history q 0 .. q n, when [np] is false), all members of the format of [d], the n-th
    emitted value y satisfies [Rel d g q n y]. *)
Definition femits `{L : Libm} (np : bool) (T : GT)
           (Rel : fdt -> (nat -> fl) -> (nat -> fl) -> nat -> fl -> Prop) : Prop :=
  forall (p : tree tensor) H, trwf p -> hist_ok np p H ->
  exists outs, trains T p H outs /\ length outs = length H /\ Forall (like p) outs /\
    forall n pos (g q : nat -> fl), (n < length H)%nat ->
      (forall i, (i <= n)%nat -> helt H i pos = Some (g i) /\ in_format (leafdt p pos) (g i)) ->
      (np = false -> forall i, (i <= n)%nat -> hpelt H i pos = Some (q i) /\ in_format (leafdt p pos) (q i)) ->
      exists y, oelt outs n pos = Some y /\ Rel (leafdt p pos) g q n y.

Lemma refines_femits `{L : Libm} np T M (Rel : fdt -> (nat -> fl) -> (nat -> fl) -> nat -> fl -> Prop) :
  refines np T M ->
  (forall d x g q n, (forall i, (i <= n)%nat -> in_format d (g i)) -> (np = false -> forall i, (i <= n)%nat -> in_format d (q i)) ->
     Rel d g q n (mout M d x g q n)) ->
  femits np T Rel.
Proof.
  intros HR HL p H Wp HH. destruct (refines_trains np T M HR p H Wp HH) as (outs & Ht & Hl & Ho & He).
  exists outs. split; [exact Ht|]. split; [exact Hl|]. split; [exact Ho|]. intros n pos g q Hn Hg Hq.
  destruct (He n pos g q Hn (fun i Hi => proj1 (Hg i Hi)) (fun Hnp i Hi => proj1 (Hq Hnp i Hi))) as (x & _ & E).
  eexists; split; [exact E|]. apply HL; [intros i Hi; now apply Hg|intros Hnp i Hi; now apply Hq].
Qed.

Section Facts.
  Context `{L : Libm}.
  Lemma fl0 : @fzero (FlOps L) = Zr false.
  Proof.
    unfold fzero. cbn [flit FlOps]. change (Q2R 0) with (0 * / 1). rewrite Rmult_0_l. change (rto F64 (Rlt_bool 0 0) 0 = Zr false).
    rewrite rto_id by (try apply fmt_0; rewrite Rabs_R0; apply top_pos). unfold fmk. rewrite Req_bool_true by reflexivity. now rewrite Rlt_bool_false by lra.
  Qed.
  Lemma fl1 : @fone (FlOps L) = Nz 1.
  Proof.
    unfold fone. cbn [flit FlOps]. replace (Q2R 1) with 1 by (unfold Q2R; cbn; lra). change (rto F64 (Rlt_bool 1 0) 1 = Nz 1).
    rewrite rto_id; [unfold fmk; now rewrite Req_bool_false by lra|apply fmt_1|]. rewrite Rabs_R1. change 1 with (bpow radix2 0). apply bpow_lt. reflexivity.
  Qed.
  Lemma flconv d x : @conv (FlOps L) d d x = x.
  Proof. unfold conv. now rewrite (proj2 (fdt_eqb_eq d d) eq_refl). Qed.
  Lemma lt_zero x : lt_ x (Zr false) = true <-> (exists r, x = Nz r /\ r < 0) \/ x = If true.
  Proof.
    destruct x as [s|r|[|]|]; cbn; try (split; [discriminate|intros [(r & E & _)|E]; discriminate]); try (split; [auto|reflexivity]).
    - unfold lt_. cbn. case Rcompare_spec; intros; split; try discriminate; try lra. intros [(r & E & _)|E]; discriminate.
    - unfold lt_. cbn. case Rcompare_spec; intros; split; try discriminate; try lra; intros; try (intros [(q & E & ?)|E]; [injection E as ->; lra|discriminate]); eauto.
      destruct H0 as [(q & E & ?)|E]; [injection E as ->; lra|discriminate]. destruct H0 as [(q & E & ?)|E]; [injection E as ->; lra|discriminate].
  Qed.
End Facts.

(*@ C07_ieee_arithmetic : what the IEEE theorems rest on: the arithmetic of the model is, operation by operation, Flocq's bit-level IEEE-754 arithmetic with round-to-nearest-even, for every pair of bit patterns of each of the four dtypes; and the members of a format are exactly the values of its bit patterns. *)
Lemma ieee_conforms : forall `{L : Libm} (d : fdt) (x y : bits_of d),
  fadd d (of_bits d x) (of_bits d y) = of_bits d (Bplus mode_NE x y) /\
  fsub d (of_bits d x) (of_bits d y) = of_bits d (Bminus mode_NE x y) /\
  fmul d (of_bits d x) (of_bits d y) = of_bits d (Bmult mode_NE x y) /\
  fdiv d (of_bits d x) (of_bits d y) = of_bits d (Bdiv mode_NE x y) /\
  fsqrt d (of_bits d x) = of_bits d (Bsqrt mode_NE x) /\
  fneg (of_bits d x) = of_bits d (Bopp x) /\ fabs (of_bits d x) = of_bits d (Babs x) /\
  flt (of_bits d x) (of_bits d y) = Bltb x y /\ fle (of_bits d x) (of_bits d y) = Bleb x y /\ feqb (of_bits d x) (of_bits d y) = Beqb x y /\
  fisnan (of_bits d x) = is_nan x /\ fisfinite (of_bits d x) = is_finite x /\
  in_format d (of_bits d x) /\ (forall z, in_format d z -> exists b, of_bits d b = z).
Proof.
  intros L d x y. split; [symmetry; apply add_B|]. split; [symmetry; apply sub_B|]. split; [symmetry; apply mul_B|]. split; [symmetry; apply div_B|].
  split; [symmetry; apply sqrt_B|]. split; [symmetry; apply opp_B|]. split; [symmetry; apply abs_B|].
  split. { cbn [flt FlOps]. unfold lt_, of_bits. rewrite <- cmp_B. unfold Bltb, SpecFloat.SFltb, Bcompare. now destruct (SpecFloat.SFcompare _ _) as [[]|]. }
  split. { cbn [fle FlOps]. unfold le_, of_bits. rewrite <- cmp_B. unfold Bleb, SpecFloat.SFleb, Bcompare. now destruct (SpecFloat.SFcompare _ _) as [[]|]. }
  split. { cbn [feqb FlOps]. unfold eq_, of_bits. rewrite <- cmp_B. unfold Beqb, SpecFloat.SFeqb, Bcompare. now destruct (SpecFloat.SFcompare _ _) as [[]|]. }
  split; [now destruct x|]. split; [now destruct x|]. split; [apply of_bits_format|apply in_format_bits].
Qed.

(*@ C07_ieee : in IEEE arithmetic of any of the four dtypes, for every pair of members of the format (every bit pattern): with keep_params_nonnegative last, apply_updates gives at every element a number >= 0 (possibly +inf by overflow) or NaN; NaN only when the parameter is NaN or infinite or the update is NaN; and for a finite parameter and update it gives the correctly rounded max(0, p+u). *)
Lemma nonneg_ieee : forall `{L : Libm} (u p : tree tensor) st, avals u = avals p -> trwf u -> trwf p ->
  exists u' r, update keep_params_nonnegative u st (Some p) = Ok (u', st) /\ apply_updates p u' = Ok r /\ like p r /\
    forall pos d x y, leafdt p pos = d -> elt p pos = Some x -> elt u pos = Some y -> in_format d x -> in_format d y ->
    exists z, elt r pos = Some z /\
      (fle fzero z = true \/ fisnan z = true) /\
      (fisnan z = true -> fisfinite x = false \/ fisnan y = true) /\
      (fisfinite x = true -> fisfinite y = true -> let v := Rmax 0 (fval x + fval y) in
         (Rabs (rnd d v) < bpow radix2 (femax d) -> fisfinite z = true /\ fval z = rnd d v) /\
         (bpow radix2 (femax d) <= Rabs (rnd d v) -> z = If false)).
Proof.
  intros L u p st E Wu Wp. destruct (nonneg_update u p st E Wu Wp) as (W & E1 & E2 & WW & Eu).
  eexists. destruct (apply_updates_spec p (emapt (fun d z => if flt (fadd d (snd z) (fst z)) (fcast d fzero) then fneg (snd z) else fst z) W)) as (r & Er & Hr & He).
  - rewrite <- E2. unfold emapt. now rewrite !tmap_tmap.
  - assumption.
  - now apply emapt_wf.
  - exists r. split; [exact Eu|]. split; [exact Er|]. split; [exact Hr|]. intros pos d x y Hd Hx Hy Fx Fy.
    pose proof Hy as Hy'. pose proof Hx as Hx'. rewrite <- E1, elt_emapt in Hy'. rewrite <- E2, elt_emapt in Hx'.
    destruct (elt W pos) as [[a b]|] eqn:Ew; cbn in Hy', Hx'; [|discriminate]. injection Hy' as ->. injection Hx' as ->.
    assert (HWp : avals W = avals p) by (rewrite <- E2; now rewrite emapt_avals).
    assert (Ed : leafdt W pos = d) by (rewrite <- Hd; now apply leafdt_avals).
    eexists. split.
    { erewrite He; [|exact Hx|rewrite elt_emapt, Ew; reflexivity]. cbn zeta. rewrite (leafdt_avals (emapt _ W) W pos) by now rewrite emapt_avals.
      rewrite Ed, Hd, promote_same, !flconv. cbn [fst snd]. reflexivity. }
    rewrite fl0. cbn [fadd flt fle fneg fcast cast_ fisnan fisfinite FlOps].
    set (s := add_ (fprec d) (femax d) x y). fold s. unfold s.
    assert (G : forall x y, in_format d x -> in_format d y -> ffin x = true -> ffin y = true -> lt_ (add_ (fprec d) (femax d) x y) (Zr false) = true <-> fval x + fval y < 0).
    { clear. intros x y Fx Fy Hx Hy. rewrite add_fin by assumption. split.
      - intros H. destruct (Rlt_or_le (fval x + fval y) 0) as [|H1]; [assumption|]. exfalso.
        pose proof (rto_le d _ _ _ _ (sgn_ok_false 0 ltac:(lra)) (add_sgn x y) H1) as H2. rewrite rto_id in H2 by (try apply fmt_0; rewrite Rabs_R0; apply top_pos).
        unfold fmk in H2. rewrite Req_bool_true in H2 by reflexivity. set (z := rto d _ _) in *. revert H H2. unfold fleq, lt_, le_. destruct z as [|q|[|]|]; cbn; try discriminate; repeat case Rcompare_spec; try discriminate; intros; lra.
      - intros H. rewrite Req_bool_false by lra. rewrite Rlt_bool_true by assumption. destruct (rto_cases d true (fval x + fval y)) as [(_ & ->)|(_ & ->)]; [|reflexivity].
        apply lt_fin; [apply fmk_fin|reflexivity|]. rewrite fmk_val. cbn [fval]. assert (H1 : rnd d (fval x + fval y) <= 0) by (apply rnd_le0; lra).
        assert (rnd d (fval x + fval y) <> 0); [|lra]. intros H2. apply rnd_plus0 in H2; [lra| |]; now apply fin_fmt. }
    destruct (ffin x) eqn:Ex.
    + assert (Hz : add_ (fprec d) (femax d) x (opp_ x) = Zr false).
      { destruct x as [[|]|q| |]; try discriminate.
        - cbn. rewrite !Rplus_0_r, Req_bool_true by reflexivity. cbn. rewrite rto_id by (try apply fmt_0; rewrite Rabs_R0; apply top_pos). unfold fmk. now rewrite Req_bool_true.
        - cbn. rewrite !Rplus_0_r, Req_bool_true by reflexivity. cbn. rewrite rto_id by (try apply fmt_0; rewrite Rabs_R0; apply top_pos). unfold fmk. now rewrite Req_bool_true.
        - cbn. replace (q + - q) with 0 by ring. rewrite Req_bool_true by reflexivity. rewrite rto_id by (try apply fmt_0; rewrite Rabs_R0; apply top_pos). unfold fmk. rewrite Req_bool_true by reflexivity. f_equal.
          destruct Fx as (F0 & _). case Rlt_bool_spec; intros; [|reflexivity]. rewrite Rlt_bool_false by lra. reflexivity. }
      destruct (ffin y) eqn:Ey.
      * specialize (G x y Fx Fy Ex Ey). destruct (lt_ _ (Zr false)) eqn:El.
        -- destruct G as (G & _). specialize (G eq_refl). rewrite Hz. split; [left; apply nonneg_le; exact I|]. split; [discriminate|].
           intros _ _. assert (Ev : Rmax 0 (fval x + fval y) = 0) by (rewrite Rmax_left; lra). rewrite Ev, rnd_0. split; [intros; split; reflexivity|]. rewrite Rabs_R0. pose proof (top_pos d). intros; exfalso. unfold femax in *. lra.
        -- assert (Hge : 0 <= fval x + fval y) by (destruct (Rlt_or_le (fval x + fval y) 0) as [H|H]; [apply G in H; discriminate|exact H]).
           assert (Hn : fnonneg (add_ (fprec d) (femax d) x y)).
           { rewrite add_fin by assumption. case Req_bool_spec; intros H0; [rewrite H0, rto_id by (try apply fmt_0; rewrite Rabs_R0; apply top_pos); unfold fmk; now rewrite Req_bool_true|]. rewrite Rlt_bool_false by lra. now apply rto_nonneg. }
           split; [left; now apply nonneg_le|]. split; [intros H; rewrite (nonneg_nn _ Hn) in H; discriminate|].
           intros _ _. assert (Ev : Rmax 0 (fval x + fval y) = fval x + fval y) by (now rewrite Rmax_right). rewrite Ev, add_fin by assumption.
           destruct (rto_cases d (if Req_bool (fval x + fval y) 0 then fneg_ x && fneg_ y else Rlt_bool (fval x + fval y) 0) (fval x + fval y)) as [(Hb & ->)|(Hb & ->)].
           ++ split; [intros _; split; [apply fmk_fin|apply fmk_val]|]. intros H. exfalso. lra.
           ++ split; [intros H; exfalso; lra|]. intros _. case Req_bool_spec; intros H0; [exfalso; rewrite H0, rnd_0, Rabs_R0 in Hb; pose proof (top_pos d); lra|]. now rewrite Rlt_bool_false by lra.
      * destruct y as [| |[|]|]; try discriminate.
        -- assert (El : add_ (fprec d) (femax d) x (If true) = If true) by (destruct x; try discriminate; reflexivity). rewrite El. change (lt_ (If true) (Zr false)) with true. cbn iota. rewrite Hz.
           split; [left; apply nonneg_le; exact I|]. split; [discriminate|]. discriminate.
        -- assert (El : add_ (fprec d) (femax d) x (If false) = If false) by (destruct x; try discriminate; reflexivity). rewrite El. change (lt_ (If false) (Zr false)) with false. cbn iota. rewrite El.
           split; [left; reflexivity|]. split; [discriminate|]. discriminate.
        -- assert (El : add_ (fprec d) (femax d) x Na = Na) by (destruct x; try discriminate; reflexivity). rewrite El. change (lt_ Na (Zr false)) with false. cbn iota. rewrite El.
           split; [right; reflexivity|]. split; [now right|]. discriminate.
    + split; [|split; [intros _; now left|discriminate]].
      destruct x as [|q|[|]|]; try discriminate.
      * destruct y as [| |[|]|]; cbn; auto.
      * destruct y as [| |[|]|]; cbn; auto.
      * cbn. auto.
Qed.

(** One array of one element of dtype [d]. *)
Definition fone1 (d : fdt) (x : fl) : tree (gt fl) := Leaf (mkT d [1%nat] [x]).
(*@ex C07_ieee_example *)
Lemma nonneg_ieee_example : forall `{L : Libm}, exists u' r z,
  update keep_params_nonnegative (fone1 F32 (Nz (-2))) EmptyState (Some (fone1 F32 (Nz 1))) = Ok (u', EmptyState) /\
  apply_updates (fone1 F32 (Nz 1)) u' = Ok r /\ elt r (0%nat, 0%nat) = Some z /\ fisfinite z = true /\ fval z = 0.
Proof.
  intros L. destruct (nonneg_ieee (fone1 F32 (Nz (-2))) (fone1 F32 (Nz 1)) EmptyState eq_refl) as (u' & r & E1 & E2 & _ & He); try (repeat constructor).
  destruct (He (0%nat, 0%nat) F32 (Nz 1) (Nz (-2)) eq_refl eq_refl eq_refl) as (z & Ez & _ & _ & Hz).
  - apply (int_format F32 1); [reflexivity|discriminate].
  - apply (int_format F32 (-2)); [reflexivity|discriminate].
  - specialize (Hz eq_refl eq_refl). cbn zeta in Hz. cbn [fval] in Hz. rewrite Rmax_left, rnd_0 in Hz by lra. destruct Hz as (Hz & _).
    exists u', r, z. split; [exact E1|]. split; [exact E2|]. split; [exact Ez|]. apply Hz. rewrite Rabs_R0. apply bpow_gt_0.
Qed.
