(** Facts about the IEEE-754 instance. *)
From Verif Require Export Fl.
From Coq Require Import Qreals Bool.
From Flocq Require Import Core.Core.
From Flocq Require Plus_error Relative.
Open Scope R_scope.

Notation rnd d := (rnd_ (fprec d) (femax d)).
Notation rto d := (fround_ (fprec d) (femax d)).
Notation fe d := (SpecFloat.fexp (fprec d) (femax d)).
Definition fmt (d : fdt) (r : R) : Prop := generic_format radix2 (fe d) r.
Notation top d := (bpow radix2 (femax d)).

#[export] Instance fe_valid d : Valid_exp (fe d) := FLT_exp_valid (SpecFloat.emin (fprec d) (femax d)) (fprec d).
#[export] Instance fe_mono d : Monotone_exp (fe d) := FLT_exp_monotone (SpecFloat.emin (fprec d) (femax d)) (fprec d).

Lemma rnd_le d x y : x <= y -> rnd d x <= rnd d y.
Proof. apply round_le; auto with typeclass_instances. Qed.
Lemma rnd_0 d : rnd d 0 = 0.
Proof. apply round_0. auto with typeclass_instances. Qed.
Lemma rnd_id d r : fmt d r -> rnd d r = r.
Proof. intros H. apply round_generic; auto with typeclass_instances. Qed.
Lemma rnd_fmt d r : fmt d (rnd d r).
Proof. apply generic_format_round; auto with typeclass_instances. Qed.
Lemma rnd_opp d r : rnd d (- r) = - rnd d r.
Proof. unfold rnd_. apply round_NE_opp. Qed.
Lemma rnd_ge0 d r : 0 <= r -> 0 <= rnd d r.
Proof. intros H. rewrite <- (rnd_0 d). now apply rnd_le. Qed.
Lemma rnd_le0 d r : r <= 0 -> rnd d r <= 0.
Proof. intros H. rewrite <- (rnd_0 d). now apply rnd_le. Qed.
Lemma rnd_abs d r : Rabs (rnd d r) = rnd d (Rabs r).
Proof.
  destruct (Rle_or_lt 0 r) as [H|H].
  - rewrite !Rabs_pos_eq; auto. now apply rnd_ge0.
  - rewrite !Rabs_left1, rnd_opp; auto; [lra|]. apply rnd_le0. lra.
Qed.
Lemma rnd_plus0 d x y : fmt d x -> fmt d y -> rnd d (x + y) = 0 -> x + y = 0.
Proof. intros Hx Hy H. apply (Plus_error.round_plus_eq_0 radix2 (fe d) ZnearestE x y Hx Hy H). Qed.
Lemma fmt_0 d : fmt d 0.
Proof. apply generic_format_0. Qed.
Lemma fmt_opp d r : fmt d r -> fmt d (- r).
Proof. apply generic_format_opp. Qed.
Lemma fmt_bpow d e : (SpecFloat.emin (fprec d) (femax d) <= e)%Z -> fmt d (bpow radix2 e).
Proof. intros H. apply generic_format_bpow. unfold SpecFloat.fexp. unfold SpecFloat.emin in *. destruct d; cbn in *; lia. Qed.
Lemma fmt_1 d : fmt d 1.
Proof. change 1 with (bpow radix2 0). apply fmt_bpow. destruct d; cbn; lia. Qed.

(** The sign given to a rounded real. *)
Definition sgn_ok (s : bool) (r : R) : Prop := (r < 0 -> s = true) /\ (0 < r -> s = false).
Lemma sgn_ok_lt r : sgn_ok (Rlt_bool r 0) r.
Proof. split; intros H; [now apply Rlt_bool_true|apply Rlt_bool_false; lra]. Qed.
Lemma sgn_ok_false r : 0 <= r -> sgn_ok false r.
Proof. split; [lra|reflexivity]. Qed.
Lemma sgn_ok_xor x y : ffin x = true -> ffin y = true -> sgn_ok (xorb (fneg_ x) (fneg_ y)) (fval x * fval y).
Proof.
  intros Hx Hy. destruct x as [s|r|s|], y as [t|q|t|]; try discriminate; cbn [fval fneg_]; try (split; intros; lra).
  do 2 case Rlt_bool_spec; intros Ha Hb; cbn; split; intros Hc; try reflexivity; nra.
Qed.
Lemma sgn_ok_xor_div x y : ffin x = true -> (exists r, y = Nz r /\ r <> 0) -> sgn_ok (xorb (fneg_ x) (fneg_ y)) (fval x / fval y).
Proof.
  intros Hx (q & -> & Hq). unfold Rdiv. destruct x as [s|r|s|]; try discriminate; cbn [fval fneg_]; try (split; intros; lra).
  assert (Hi : 0 < q /\ 0 < / q \/ q < 0 /\ / q < 0).
  { destruct (Rtotal_order q 0) as [H|[H|H]]; [right|easy|left]; (split; [lra|]). now apply Rinv_lt_0_compat. now apply Rinv_0_lt_compat. }
  do 2 case Rlt_bool_spec; intros Ha Hb; cbn; split; intros Hc; try reflexivity; nra.
Qed.

(** Order on values: extended reals, zeros of both signs equal. *)
Definition fleq (x y : fl) : Prop := le_ x y = true.
Lemma cmp_fin x y : ffin x = true -> ffin y = true -> cmp_ x y = Some (Rcompare (fval x) (fval y)).
Proof. now destruct x, y. Qed.
Lemma le_fin x y : ffin x = true -> ffin y = true -> (le_ x y = true <-> fval x <= fval y).
Proof.
  intros Hx Hy. unfold le_. rewrite cmp_fin by assumption. case Rcompare_spec; intros; split; intros; try reflexivity; try lra; try discriminate.
Qed.
Lemma lt_fin x y : ffin x = true -> ffin y = true -> (lt_ x y = true <-> fval x < fval y).
Proof.
  intros Hx Hy. unfold lt_. rewrite cmp_fin by assumption. case Rcompare_spec; intros; split; intros; try reflexivity; try lra; try discriminate.
Qed.
Lemma fmk_fin s r : ffin (fmk s r) = true. Proof. unfold fmk. now destruct (Req_bool r 0). Qed.
Lemma fmk_val s r : fval (fmk s r) = r. Proof. unfold fmk. case Req_bool_spec; intros E; cbn; congruence. Qed.
Lemma fmk_eta x d : in_format d x -> ffin x = true -> x = fmk (fneg_ x) (fval x).
Proof.
  destruct x as [s|r|s|]; intros H Hf; try discriminate; unfold fmk; cbn [fval fneg_].
  - now rewrite Req_bool_true.
  - now rewrite Req_bool_false by apply H.
Qed.

(** Rounding a real. *)
Lemma rto_cases d s r :
  (Rabs (rnd d r) < top d /\ rto d s r = fmk s (rnd d r)) \/ (top d <= Rabs (rnd d r) /\ rto d s r = If s).
Proof. unfold fround_. case Rlt_bool_spec; auto. Qed.
Lemma rto_nan d s r : isnan_ (rto d s r) = false.
Proof. destruct (rto_cases d s r) as [(_ & ->)|(_ & ->)]; [|reflexivity]. unfold fmk. now destruct Req_bool. Qed.
Lemma rto_format d s r : in_format d (rto d s r).
Proof.
  destruct (rto_cases d s r) as [(Hb & ->)|(_ & ->)]; [|exact I]. unfold fmk. case Req_bool_spec; intros E; [exact I|]. cbn. split; [exact E|]. split; [apply rnd_fmt|exact Hb].
Qed.
Lemma rto_id d s r : fmt d r -> Rabs r < top d -> rto d s r = fmk s r.
Proof. intros Hf Hr. unfold fround_. rewrite rnd_id by exact Hf. now rewrite Rlt_bool_true. Qed.
Lemma top_pos d : 0 < top d. Proof. apply bpow_gt_0. Qed.
Lemma rto_le d s r s' r' : sgn_ok s r -> sgn_ok s' r' -> r <= r' -> fleq (rto d s r) (rto d s' r').
Proof.
  intros (Hs1 & Hs2) (Ht1 & Ht2) Hr. pose proof (rnd_le d r r' Hr) as Hm. pose proof (top_pos d) as Hp. unfold fleq.
  assert (Hsg : forall q, top d <= Rabs (rnd d q) -> (q < 0 /\ rnd d q <= - top d) \/ (0 < q /\ top d <= rnd d q)).
  { intros q Hq. destruct (Rtotal_order q 0) as [H|[->|H]]; [left|exfalso; rewrite rnd_0, Rabs_R0 in Hq; lra|right]; (split; [exact H|]).
    - rewrite Rabs_left1 in Hq; [lra|]. apply rnd_le0. lra.
    - rewrite Rabs_pos_eq in Hq; [lra|]. apply rnd_ge0. lra. }
  destruct (rto_cases d s r) as [(Ha & ->)|(Ha & ->)], (rto_cases d s' r') as [(Hb & ->)|(Hb & ->)].
  - apply le_fin; try apply fmk_fin. now rewrite !fmk_val.
  - apply Hsg in Hb as [(Hc & Hb)|(Hc & Hb)].
    + apply Rabs_lt_inv in Ha. lra.
    + rewrite (Ht2 Hc). unfold fmk. now destruct Req_bool.
  - apply Hsg in Ha as [(Hc & Ha)|(Hc & Ha)].
    + rewrite (Hs1 Hc). unfold fmk. now destruct Req_bool.
    + apply Rabs_lt_inv in Hb. lra.
  - apply Hsg in Ha as [(Hc & Ha)|(Hc & Ha)]; apply Hsg in Hb as [(Hd & Hb)|(Hd & Hb)]; try lra.
    + now rewrite (Hs1 Hc), (Ht1 Hd).
    + now rewrite (Hs1 Hc), (Ht2 Hd).
    + now rewrite (Hs2 Hc), (Ht2 Hd).
Qed.
Lemma fleq_refl x : isnan_ x = false -> fleq x x.
Proof.
  intros H. destruct x as [s|r|s|]; try discriminate.
  - apply le_fin; auto. lra.
  - apply le_fin; auto. lra.
  - unfold fleq, le_. cbn. now rewrite eqb_reflx.
Qed.
Lemma fleq_trans x y z : fleq x y -> fleq y z -> fleq x z.
Proof.
  unfold fleq. intros H1 H2.
  destruct (ffin x) eqn:Hx, (ffin y) eqn:Hy, (ffin z) eqn:Hz.
  - apply le_fin in H1; auto. apply le_fin in H2; auto. apply le_fin; auto. lra.
  - destruct z as [| |[|]|]; try discriminate; destruct x as [| |[|]|], y as [| |[|]|]; try discriminate; auto.
  - destruct y as [| |[|]|]; try discriminate; destruct x as [| |[|]|], z as [| |[|]|]; try discriminate; auto.
  - destruct y as [| |[|]|]; try discriminate; destruct x as [| |[|]|], z as [| |[|]|]; try discriminate; auto.
  - destruct x as [| |[|]|]; try discriminate; destruct y as [| |[|]|], z as [| |[|]|]; try discriminate; auto.
  - destruct x as [| |[|]|]; try discriminate; destruct y as [| |[|]|], z as [| |[|]|]; try discriminate; auto.
  - destruct x as [| |[|]|]; try discriminate; destruct y as [| |[|]|], z as [| |[|]|]; try discriminate; auto.
  - destruct x as [| |[|]|]; try discriminate; destruct y as [| |[|]|], z as [| |[|]|]; try discriminate; auto.
Qed.
Lemma fleq_nn x y : fleq x y -> isnan_ x = false /\ isnan_ y = false.
Proof. unfold fleq, le_. destruct x as [| |[|]|], y as [| |[|]|]; cbn; try discriminate; auto. Qed.

(** Non-negative: zero of either sign, positive, +inf. *)
Definition fnonneg (x : fl) : Prop := match x with Zr _ => True | Nz r => 0 <= r | If s => s = false | Na => False end.
Lemma nonneg_le x : fnonneg x <-> le_ (Zr false) x = true.
Proof.
  destruct x as [s|r|[|]|]; cbn [fnonneg].
  - split; [|easy]. intros _. apply le_fin; auto. cbn. lra.
  - split; intros H; [apply le_fin; auto; cbn; lra|]. apply le_fin in H; auto.
  - split; discriminate.
  - easy.
  - split; [easy|discriminate].
Qed.
Definition positive_ (x : fl) : Prop := match x with Nz r => 0 < r | If s => s = false | _ => False end.
Lemma positive_nonneg x : positive_ x -> fnonneg x.
Proof. destruct x; cbn; try tauto. lra. Qed.
Lemma nonneg_nn x : fnonneg x -> isnan_ x = false. Proof. now destruct x. Qed.
Lemma rto_nonneg d r : 0 <= r -> fnonneg (rto d false r).
Proof.
  intros H. destruct (rto_cases d false r) as [(_ & ->)|(_ & ->)]; [|reflexivity]. unfold fmk. case Req_bool_spec; intros E; [exact I|]. cbn. now apply rnd_ge0.
Qed.
Lemma rto_nonneg' d s r : 0 < r -> sgn_ok s r -> fnonneg (rto d s r).
Proof. intros H (_ & Hs). rewrite (Hs H). apply rto_nonneg. lra. Qed.

Lemma add_sgn x y : sgn_ok (if Req_bool (fval x + fval y) 0 then andb (fneg_ x) (fneg_ y) else Rlt_bool (fval x + fval y) 0) (fval x + fval y).
Proof. case Req_bool_spec; intros E; [rewrite E; split; lra|apply sgn_ok_lt]. Qed.
Lemma add_fin d x y : ffin x = true -> ffin y = true ->
  add_ (fprec d) (femax d) x y = rto d (if Req_bool (fval x + fval y) 0 then andb (fneg_ x) (fneg_ y) else Rlt_bool (fval x + fval y) 0) (fval x + fval y).
Proof. destruct x, y; try discriminate; reflexivity. Qed.
Lemma mul_fin d x y : ffin x = true -> ffin y = true ->
  mul_ (fprec d) (femax d) x y = rto d (xorb (fneg_ x) (fneg_ y)) (fval x * fval y).
Proof. destruct x, y; try discriminate; reflexivity. Qed.
Lemma div_fin d x q : ffin x = true ->
  div_ (fprec d) (femax d) x (Nz q) = rto d (xorb (fneg_ x) (Rlt_bool q 0)) (fval x / q).
Proof. destruct x; try discriminate; reflexivity. Qed.
Lemma add_format d x y : in_format d (add_ (fprec d) (femax d) x y).
Proof.
  destruct x as [| |[|]|], y as [| |[|]|]; try exact I; apply rto_format.
Qed.
Lemma mul_format d x y : in_format d (mul_ (fprec d) (femax d) x y).
Proof. destruct x as [| |[|]|], y as [| |[|]|]; try exact I; apply rto_format. Qed.
Lemma div_format d x y : in_format d (div_ (fprec d) (femax d) x y).
Proof. destruct x as [| |[|]|], y as [| |[|]|]; try exact I; apply rto_format. Qed.
Lemma sqrt_format d x : in_format d (sqrt_ (fprec d) (femax d) x).
Proof. destruct x as [|r|[|]|]; try exact I. cbn. case Rlt_bool_spec; intros; [exact I|apply rto_format]. Qed.
Lemma cast_format d x : in_format d (cast_ d x).
Proof. destruct x; try exact I. apply rto_format. Qed.
Lemma opp_format d x : in_format d x -> in_format d (opp_ x).
Proof. destruct x as [|r| |]; try (intros; exact I). cbn. intros (H & Hf & Hb). split; [lra|]. split; [now apply generic_format_opp|now rewrite Rabs_Ropp]. Qed.
Lemma cast_id d x : in_format d x -> cast_ d x = x.
Proof.
  destruct x as [|r| |]; try reflexivity. intros (H & Hf & Hb). cbn. rewrite rto_id by assumption. unfold fmk. now rewrite Req_bool_false.
Qed.
Lemma fin_fmt d x : in_format d x -> fmt d (fval x) /\ Rabs (fval x) < top d.
Proof.
  destruct x as [|r| |]; cbn; try (intros _; split; [apply fmt_0|rewrite Rabs_R0; apply top_pos]). tauto.
Qed.

Lemma add_nonneg d x y : fnonneg x -> fnonneg y -> fnonneg (add_ (fprec d) (femax d) x y).
Proof.
  intros Hx Hy. destruct (ffin x && ffin y) eqn:E.
  - apply andb_prop in E as (Ex & Ey). rewrite add_fin by assumption.
    assert (0 <= fval x) by (destruct x; cbn in *; try lra; discriminate). assert (0 <= fval y) by (destruct y; cbn in *; try lra; discriminate).
    case Req_bool_spec; intros E.
    + rewrite E, rto_id by (try apply fmt_0; rewrite Rabs_R0; apply top_pos). unfold fmk. now rewrite Req_bool_true.
    + apply rto_nonneg'; [lra|apply sgn_ok_lt].
  - destruct x as [| |[|]|], y as [| |[|]|]; try discriminate; cbn in *; try discriminate; try easy.
Qed.
Lemma mul_nonneg d x y : fnonneg x -> fnonneg y -> isnan_ (mul_ (fprec d) (femax d) x y) = false -> fnonneg (mul_ (fprec d) (femax d) x y).
Proof.
  intros Hx Hy Hn. destruct (ffin x && ffin y) eqn:E.
  - apply andb_prop in E as (Ex & Ey). rewrite mul_fin by assumption.
    assert (0 <= fval x) by (destruct x; cbn in *; try lra; discriminate). assert (0 <= fval y) by (destruct y; cbn in *; try lra; discriminate).
    destruct (Req_dec (fval x * fval y) 0) as [E|E].
    + rewrite E, rto_id by (try apply fmt_0; rewrite Rabs_R0; apply top_pos). unfold fmk. now rewrite Req_bool_true.
    + apply rto_nonneg'; [nra|now apply sgn_ok_xor].
  - destruct x as [s|r|[|]|], y as [t|q|[|]|]; try discriminate; cbn in *; try discriminate; try easy; rewrite Rlt_bool_false by lra; reflexivity.
Qed.
Lemma mul_sq d x : isnan_ x = false -> fnonneg (mul_ (fprec d) (femax d) x x).
Proof.
  intros Hn. destruct (ffin x) eqn:Ex.
  - rewrite mul_fin by assumption. rewrite xorb_nilpotent. apply rto_nonneg. nra.
  - destruct x as [| |[|]|]; try discriminate; reflexivity.
Qed.
(** A product is NaN only for NaN operands and 0 * inf. *)
Lemma mul_nan d x y : isnan_ (mul_ (fprec d) (femax d) x y) = true ->
  isnan_ x = true \/ isnan_ y = true \/ (exists s t, x = Zr s /\ y = If t) \/ (exists s t, x = If s /\ y = Zr t).
Proof.
  destruct x as [s|r|s|], y as [t|q|t|]; auto; cbn [mul_]; try (now rewrite rto_nan); try discriminate; intros _; right; right; eauto.
Qed.
Lemma mul_pos_nn d x y : positive_ x -> fnonneg y -> isnan_ (mul_ (fprec d) (femax d) x y) = false \/ (exists s, y = Zr s /\ x = If false).
Proof.
  intros Hx Hy. destruct (isnan_ (mul_ _ _ x y)) eqn:E; [|now left]. right. apply mul_nan in E as [E|[E|[(s & t & -> & ->)|(s & t & -> & ->)]]].
  - destruct x; discriminate || easy.
  - destruct y; discriminate || easy.
  - easy.
  - cbn in Hx. subst s. eauto.
Qed.
Lemma sqrt_nonneg d x : fnonneg x -> fnonneg (sqrt_ (fprec d) (femax d) x).
Proof.
  destruct x as [s|r|[|]|]; cbn; try easy. intros Hr. rewrite Rlt_bool_false by lra. apply rto_nonneg, sqrt_pos.
Qed.
Lemma div_nonneg d x y : fnonneg x -> positive_ y -> isnan_ (div_ (fprec d) (femax d) x y) = false -> fnonneg (div_ (fprec d) (femax d) x y).
Proof.
  intros Hx Hy Hn. destruct x as [s|r|[|]|], y as [t|q|[|]|]; cbn in Hx, Hy; try easy; cbn [fnonneg] in *.
  - cbn [div_ fneg_ fval]. unfold Rdiv. rewrite Rmult_0_l, rto_id by (try apply fmt_0; rewrite Rabs_R0; apply top_pos). unfold fmk. now rewrite Req_bool_true.
  - cbn [div_ fneg_ fval]. rewrite !Rlt_bool_false by lra. apply rto_nonneg. apply Rmult_le_pos; [lra|]. left. now apply Rinv_0_lt_compat.
  - cbn. rewrite Rlt_bool_false by lra. reflexivity.
Qed.
Lemma cast_nonneg d x : fnonneg x -> fnonneg (cast_ d x).
Proof.
  destruct x as [s|r|[|]|]; cbn; try easy. intros Hr. destruct (Req_dec r 0) as [->|].
  - rewrite rto_id by (try apply fmt_0; rewrite Rabs_R0; apply top_pos). unfold fmk. now rewrite Req_bool_true.
  - apply rto_nonneg'; [lra|apply sgn_ok_lt].
Qed.
Lemma add_pos d x y : fnonneg x -> positive_ y -> in_format d x -> in_format d y -> positive_ (add_ (fprec d) (femax d) x y).
Proof.
  intros Hx Hy Fx Fy. destruct (ffin x && ffin y) eqn:E.
  - apply andb_prop in E as (Ex & Ey). rewrite add_fin by assumption.
    assert (0 <= fval x) by (destruct x; cbn in *; try lra; discriminate). assert (0 < fval y) by (destruct y; cbn in *; try lra; try easy; discriminate).
    rewrite Req_bool_false, Rlt_bool_false by lra. destruct (rto_cases d false (fval x + fval y)) as [(_ & ->)|(_ & ->)]; [|reflexivity].
    unfold fmk. case Req_bool_spec; intros E.
    + apply rnd_plus0 in E; [lra| |]; now apply fin_fmt.
    + cbn. assert (0 <= rnd d (fval x + fval y)) by (apply rnd_ge0; lra). lra.
  - destruct x as [| |[|]|], y as [| |[|]|]; try discriminate; cbn in *; try discriminate; try easy.
Qed.

(** Dyadic members of a format. *)
Lemma fmt_dy d m e : (Z.abs m < 2 ^ fprec d)%Z -> (SpecFloat.emin (fprec d) (femax d) <= e)%Z -> fmt d (IZR m * bpow radix2 e).
Proof.
  intros Hm He. apply (generic_format_FLT radix2 (SpecFloat.emin (fprec d) (femax d)) (fprec d)).
  exists (Float radix2 m e); [reflexivity|exact Hm|exact He].
Qed.
Lemma fmt_int d m : (Z.abs m < 2 ^ fprec d)%Z -> fmt d (IZR m).
Proof. intros H. replace (IZR m) with (IZR m * bpow radix2 0) by (cbn; lra). apply fmt_dy; [exact H|]. destruct d; cbn; lia. Qed.
Lemma int_lt_top d m : (Z.abs m < 2 ^ fprec d)%Z -> Rabs (IZR m) < top d.
Proof.
  intros H. rewrite <- abs_IZR. apply Rlt_le_trans with (IZR (2 ^ fprec d)); [now apply IZR_lt|].
  change 2%Z with (radix_val radix2). rewrite IZR_Zpower by (destruct d; cbn; lia). apply bpow_le. destruct d; cbn; lia.
Qed.
Lemma int_format d m : (Z.abs m < 2 ^ fprec d)%Z -> m <> 0%Z -> in_format d (Nz (IZR m)).
Proof. intros H H0. split; [now apply not_0_IZR|]. split; [now apply fmt_int|now apply int_lt_top]. Qed.
