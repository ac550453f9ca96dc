(** scale_by_trust_ratio in any arithmetic, and in IEEE arithmetic. *)
From Verif Require Export P_ieee10.
From Coq Require Import Psatz Bool.
From Flocq Require Import Core.Core IEEE754.BinarySingleNaN.
Open Scope R_scope.
#[local] Existing Instance FlOps.
(*@header
From Flocq Require Import Core.Core IEEE754.BinarySingleNaN.
Open Scope R_scope.
#[local] Existing Instance FlOps.
*)
(** The trust ratio of an update and a parameter array of dtypes d and e: the quotient of their clamped norms (each computed in its own dtype), or 1 if either is 0. *)
Definition trust_ratio `{O : Ops} (d e : fdt) (min_norm : F) (us ps : list F) : F :=
  let D := promote e d in
  let pn := norm_row e min_norm ps in
  let un := norm_row d min_norm us in
  if feqb pn (fcast e fzero) || feqb un (fcast d fzero) then conv e D (fcast e fone) else fdiv D (conv e D pn) (conv d D un).
Lemma safe_norm_gen `{O : Ops} (t : tensor) eps : safe_norm t eps = norm_row (dt t) eps (dat t).
Proof. unfold safe_norm, norm_row, norm, tsum, tsquare, un, emap. cbn [dt dat]. destruct (fle _ _); reflexivity. Qed.
(*@ C24_any_arithmetic : In any arithmetic and for any dtypes: scale_by_trust_ratio never raises on updates and params of one structure; a leaf of updates (dtype d) with its parameter (dtype e) is multiplied, in the promoted dtype, by one number for the whole leaf: the parameter's norm over the update's - each the square root of the sum of squares computed in the array's own dtype, or min_norm if that is not smaller - divided in the promoted dtype, or by 1 if one of the two is 0.  The shape is kept, the dtype becomes the promoted one. *)
Lemma trust_ops : forall `{O : Ops} (u p : tree tensor) (m : F) (st : state), tdef u = tdef p -> trwf u ->
  exists u', update (scale_by_trust_ratio m) u st (Some p) = Ok (u', st) /\ tdef u' = tdef u /\
    forall j a b r, nth_error (leaves u) j = Some a -> nth_error (leaves p) j = Some b -> nth_error (leaves u') j = Some r ->
      let D := promote (dt b) (dt a) in
      dt r = D /\ shp r = shp a /\ dat r = map (fun x => fmul D (conv (dt a) D x) (trust_ratio (dt a) (dt b) m (dat a) (dat b))) (dat a).
Proof.
  intros O u p m st E Wu. destruct (tree_pair_tdef u p E) as (z & Z1 & Z2). unfold trwf in Wu.
  destruct (tree_choice (fun q r => trust_leaf m (fst q) (snd q) = Ok r /\ let D := promote (dt (snd q)) (dt (fst q)) in
      dt r = D /\ shp r = shp (fst q) /\ dat r = map (fun x => fmul D (conv (dt (fst q)) D x) (trust_ratio (dt (fst q)) (dt (snd q)) m (dat (fst q)) (dat (snd q)))) (dat (fst q))) z) as (w & Ew & Hw).
  { rewrite <- Z1, leaves_tmap, Forall_map in Wu. rewrite Forall_forall in *. intros (a, b) Hq. specialize (Wu _ Hq). cbn [fst snd] in *.
    unfold trust_leaf. rewrite bin_scalar_r by exact Wu. eexists. split; [reflexivity|]. cbn [dt shp dat].
    assert (Ep : promote (dt a) (promote (dt b) (dt a)) = promote (dt b) (dt a)) by (destruct (dt a), (dt b); reflexivity). rewrite Ep. split; [reflexivity|]. split; [reflexivity|]. apply map_ext. intros x. rewrite conv_same, !safe_norm_gen. reflexivity. }
  rewrite Forall_forall in Hw. exists (tmap snd w).
  split.
  { cbn [update scale_by_trust_ratio stateless]. rewrite <- Z1, <- Z2, tmm2_same, <- Ew, tmapM_tmap.
    rewrite (tmapM_ext _ (fun q => Ok (snd q))); [now rewrite tmapM_ok|]. intros q Hq. apply Hw, Hq. }
  split; [rewrite <- Z1, <- Ew; now rewrite !tdef_tmap|].
  intros j a b r. rewrite <- Z1, <- Z2, <- Ew, !tmap_tmap, !nth_error_leaves_tmap.
  destruct (nth_error (leaves w) j) as [q|] eqn:Eq; cbn; [|discriminate]. intros [= <-] [= <-] [= <-].
  destruct (Hw q (nth_error_In _ _ Eq)) as [_ Hs]. exact Hs.
Qed.
Lemma zr_eq s : eq_ (Zr s) (Zr false) <> false.
Proof. unfold eq_. rewrite cmp_fin by reflexivity. rewrite Rcompare_Eq by reflexivity. discriminate. Qed.
Lemma mul_comm_fl d x y : mul_ (fprec d) (femax d) x y = mul_ (fprec d) (femax d) y x.
Proof.
  assert (X : forall a b, xorb a b = xorb b a) by (intros [|] [|]; reflexivity).
  destruct x as [s|q|s|], y as [t|r|t|]; cbn [mul_]; try reflexivity; try (f_equal; apply X); now rewrite X, Rmult_comm.
Qed.
Section T.
  Context `{L : Libm}.
  Variable HS : sum_sane L.
  (** The norm of finite elements in one dtype is a non-negative number, infinite when one square overflows. *)
  Lemma norm_row_fl d eps xs : Forall (fun x => ffin x = true) xs -> (ffin (cast_ d eps) = true /\ 0 <= fval (cast_ d eps)) ->
    fnonneg (@norm_row (FlOps L) d eps xs) /\ in_format d (@norm_row (FlOps L) d eps xs) /\ ((exists v, In v xs /\ mul_ (fprec d) (femax d) v v = If false) -> @norm_row (FlOps L) d eps xs = If false).
  Proof.
    intros Fx (Fe & He). set (sq := map (fun x => mul_ (fprec d) (femax d) x x) xs).
    destruct (HS d sq) as (S1 & S2 & S3). { apply Forall_map, Forall_forall. intros y _. apply mul_format. } { apply Forall_map, Forall_forall. intros y Hy. apply mul_sq. rewrite Forall_forall in Fx. specialize (Fx y Hy). now destruct y. }
    pose proof (sqrt_nonneg d _ S2) as S4. pose proof (sqrt_format d (l_sum L d sq)) as S5.
    assert (E : @norm_row (FlOps L) d eps xs = let n := sqrt_ (fprec d) (femax d) (l_sum L d sq) in if le_ n (cast_ d eps) then cast_ d eps else n) by reflexivity. rewrite E. cbn zeta.
    assert (Ne : fnonneg (cast_ d eps)) by (destruct (cast_ d eps); try discriminate; cbn in *; auto; lra).
    split; [destruct (le_ _ _); assumption|]. split; [destruct (le_ _ _); [apply cast_format|exact S5]|].
    intros (v & Hv & Ov). assert (Ei : l_sum L d sq = If false). { specialize (S3 (If false)). assert (In (If false) sq) as Hin by (unfold sq; apply in_map_iff; exists v; auto). specialize (S3 Hin). destruct (l_sum L d sq) as [| |[|]|]; cbn in S3; try discriminate; reflexivity. }
    rewrite Ei. cbn [sqrt_]. destruct (cast_ d eps) as [| |[|]|]; try discriminate; reflexivity.
  Qed.
End T.
(*@ C24_overflow_ieee : (finding) IEEE arithmetic, finite updates and parameters of one dtype, any finite min_norm >= 0: (1) if the square of one parameter of a leaf overflows the dtype (|p| >= 256 in float16, 1.8e19 in float32 and bfloat16) and the update's norm is finite and not 0, the trust ratio is infinite and every element of that leaf becomes +-inf, or NaN where the update was 0; (2) if the square of one element of the update overflows instead, and the parameter's norm is finite and not 0, every element of that leaf becomes 0. *)
Lemma trust_overflow : forall `{L : Libm} (u p : tree tensor) (m : fl) (st : state) (d : fdt), sum_sane L -> tdef u = tdef p -> trwf u ->
  fisfinite (fcast d m) = true -> 0 <= fval (fcast d m) ->
  exists u', update (scale_by_trust_ratio m) u st (Some p) = Ok (u', st) /\
    forall j a b r, nth_error (leaves u) j = Some a -> nth_error (leaves p) j = Some b -> nth_error (leaves u') j = Some r -> dt a = d -> dt b = d ->
      Forall (fun x => fisfinite x = true) (dat a) -> Forall (fun x => fisfinite x = true) (dat b) ->
      ((exists v, In v (dat b) /\ fmul d v v = If false) -> fisfinite (norm_row d m (dat a)) = true -> feqb (norm_row d m (dat a)) fzero = false ->
         Forall (fun y => y = Na \/ exists s, y = If s) (dat r)) /\
      ((exists v, In v (dat a) /\ fmul d v v = If false) -> fisfinite (norm_row d m (dat b)) = true -> feqb (norm_row d m (dat b)) fzero = false ->
         Forall (fun y => exists s, y = Zr s) (dat r)).
Proof.
  intros L u p m st d HS E Wu Fm Hm. destruct (trust_ops (O := FlOps L) u p m st E Wu) as (u' & Eu & _ & H). exists u'. split; [exact Eu|].
  intros j a b r Ea Eb Er Da Db Fa Fb. destruct (H j a b r Ea Eb Er) as (_ & _ & Hd). rewrite Da, Db, promote_same in Hd. clear H Ea Eb Er Eu.
  destruct (norm_row_fl (L := L) HS d m (dat a) Fa (conj Fm Hm)) as (A1 & A2 & A3). destruct (norm_row_fl (L := L) HS d m (dat b) Fb (conj Fm Hm)) as (B1 & B2 & B3).
  unfold trust_ratio in Hd. rewrite promote_same in Hd. cbn zeta in Hd. rewrite !conv_same in Hd. rewrite fl0 in *. cbn [fcast fmul fdiv feqb fisfinite FlOps cast_] in *. change (@F (FlOps L)) with fl in *.
  set (na := @norm_row (FlOps L) d m (dat a)) in *. set (nb := @norm_row (FlOps L) d m (dat b)) in *. change (@F (FlOps L)) with fl in *. clearbody na nb.
  split; intros Hv Fn Nz0.
  - specialize (B3 Hv). rewrite B3, Nz0 in Hd. cbn [eq_ cmp_ orb] in Hd. rewrite Hd. apply Forall_map, Forall_forall. intros x Hx. rewrite Forall_forall in Fa. specialize (Fa x Hx). rewrite conv_same.
    destruct na as [s|q|s|]; try discriminate; [exfalso; revert Nz0; apply zr_eq|]. cbn [div_]. destruct x; try discriminate; cbn; eauto.
  - specialize (A3 Hv). rewrite A3, Nz0 in Hd. cbn [eq_ cmp_ orb] in Hd. rewrite Hd. apply Forall_map, Forall_forall. intros x Hx. rewrite Forall_forall in Fa. specialize (Fa x Hx). rewrite conv_same.
    destruct nb as [s|q|s|]; try discriminate; [exfalso; revert Nz0; apply zr_eq|]. cbn [div_]. match goal with |- context [mul_ _ _ x (Zr ?s')] => destruct (zero_mul d s' x Fa) as (s2 & E2) end. rewrite mul_comm_fl. eauto.
Qed.
(*@ex C24_overflow_example *)
Lemma trust_overflow_example : exists u',
  update (scale_by_trust_ratio (O := FlOps cr_libm) (Zr false)) (fone1 F16 (Nz 1)) EmptyState (Some (fone1 F16 (Nz 256))) = Ok (u', EmptyState) /\
  exists r, nth_error (leaves u') 0 = Some r /\ Forall (fun y => y = Na \/ exists s, y = If s) (dat r).
Proof.
  destruct (trust_overflow (L := cr_libm) (fone1 F16 (Nz 1)) (fone1 F16 (Nz 256)) (Zr false) EmptyState F16 cr_sum eq_refl) as (u' & E & H).
  - constructor; [reflexivity|constructor].
  - reflexivity.
  - cbn. lra.
  - exists u'. split; [exact E|]. destruct (trust_ops (O := FlOps cr_libm) (fone1 F16 (Nz 1)) (fone1 F16 (Nz 256)) (Zr false) EmptyState eq_refl) as (v & Ev & Tv & _); [constructor; [reflexivity|constructor]|].
    pose proof (eq_trans (eq_sym E) Ev) as K. injection K as <-. destruct u' as [r|k l]; [|discriminate Tv]. exists r. split; [reflexivity|].
    assert (R1 : forall s, rto F16 s 1 = Nz 1). { intros s. rewrite rto_id; [unfold fmk; now rewrite Req_bool_false by lra|apply fmt_1|]. rewrite Rabs_R1. change 1 with (bpow radix2 0). apply bpow_lt. reflexivity. }
    assert (N : @norm_row (FlOps cr_libm) F16 (Zr false) [Nz 1] = Nz 1).
    { unfold norm_row. cbn [map fmul FlOps fsum l_sum cr_libm fold_left fsqrt fle fcast cast_].
      assert (M : mul_ (fprec F16) (femax F16) (Nz 1) (Nz 1) = Nz 1) by (rewrite mul_fin by reflexivity; cbn [fval]; rewrite Rmult_1_l; apply R1). rewrite M.
      assert (A : add_ (fprec F16) (femax F16) (Zr false) (Nz 1) = Nz 1) by (rewrite add_fin by reflexivity; cbn [fval]; rewrite Rplus_0_l; apply R1). rewrite A.
      assert (Q : sqrt_ (fprec F16) (femax F16) (Nz 1) = Nz 1) by (cbn [sqrt_]; rewrite Rlt_bool_false by lra; rewrite sqrt_1; apply R1). rewrite Q.
      assert (Z : le_ (Nz 1) (Zr false) = false) by (destruct (le_ (Nz 1) (Zr false)) eqn:El; [apply le_fin in El; auto; cbn in El; lra|reflexivity]). rewrite Z. reflexivity. }
    destruct (H 0%nat _ _ r eq_refl eq_refl eq_refl eq_refl eq_refl) as (H1 & _); [repeat constructor|repeat constructor|]. apply H1.
    + exists (Nz 256). split; [now left|]. cbn [fmul FlOps]. rewrite mul_fin by reflexivity. cbn [fval fneg_]. replace (256 * 256) with (bpow radix2 16) by (cbn; lra). rewrite !Rlt_bool_false by lra. cbn [xorb]. destruct (rto_cases F16 false (bpow radix2 16)) as [(K & _)|(_ & K)]; [|exact K]. exfalso. rewrite rnd_id in K by (apply fmt_bpow; cbn; lia). rewrite Rabs_pos_eq in K by apply bpow_ge_0. change (top F16) with (bpow radix2 16) in K. lra.
    + exact (f_equal ffin N).
    + rewrite fl0. refine (eq_trans (f_equal (fun x => eq_ x (Zr false)) N) _). unfold eq_. rewrite cmp_fin by reflexivity. cbn [fval]. rewrite Rcompare_Gt by lra. reflexivity.
Qed.
