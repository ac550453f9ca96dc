(** IEEE-754: softmax_cross_entropy and cosine_similarity. *)
From Verif Require Export P_ieee8 P_guard.
From Coq Require Import Psatz Qreals Bool.
From Flocq Require Import Core.Core IEEE754.BinarySingleNaN.
Open Scope R_scope.
#[local] Existing Instance FlOps.
(*@header
From Flocq Require Import Core.Core IEEE754.BinarySingleNaN.
Open Scope R_scope.
#[local] Existing Instance FlOps.
*)

(** ** In any arithmetic: the losses, row by row *)
(** log_softmax of one row: subtract the largest entry, then the logarithm of the sum of the exponentials. *)
Definition log_softmax_row `{O : Ops} (d : fdt) (xs : list F) : list F :=
  let shifted := map (fun x => fsub d x (fstop (max_list xs))) xs in
  map (fun y => fsub d y (flog d (fsum d (map (fexp d) shifted)))) shifted.
(** the dot product of two rows of dtypes d and e, in the promoted dtype. *)
Definition dot_row `{O : Ops} (d e : fdt) (ls xs : list F) : F :=
  let D := promote d e in fsum D (map2 (fun a b => fmul D (conv d D a) (conv e D b)) ls xs).
(** a row divided by its norm, clamped below by epsilon. *)
Definition norm_row `{O : Ops} (d : fdt) (eps : F) (xs : list F) : F :=
  let n := fsqrt d (fsum d (map (fun x => fmul d x x) xs)) in if fle n (fcast d eps) then fcast d eps else n.
Definition unit_row `{O : Ops} (d : fdt) (eps : F) (xs : list F) : list F := map (fun x => fdiv d x (norm_row d eps xs)) xs.

Lemma log_softmax_gen `{O : Ops} (x : tensor) B n : twf x -> shp x = B ++ [n] -> (0 < n)%nat -> exists r, log_softmax x = Ok r /\ dt r = dt x /\ shp r = B ++ [n] /\ twf r /\
  forall o, valid B o -> row r o = log_softmax_row (dt x) (row x o).
Proof.
  intros W E Hn. unfold log_softmax. assert (El : last_dim (shp x) = Ok n) by (unfold last_dim; rewrite E; destruct (B ++ [n]) as [|x0 l0] eqn:EB; [destruct B; discriminate|]; rewrite <- EB; now rewrite last_snoc). rewrite El. destruct n as [|n']; [lia|]. set (n := S n') in *.
  destruct (last_keep_val (fun _ => max_list) x B n E) as (m & Em & Dm & Sm & Wm & Hm). rewrite Em. cbn [rbind].
  destruct (keep_rows fsub x (un (fun _ => fstop) m) B n) as (sh & Esh & Dsh & Ssh & Wsh & Hsh); [exact W|now apply emap_wf|exact Dm|exact E|exact Sm|]. rewrite Esh. cbn [rbind].
  destruct (last_keep_val fsum (un fexp sh) B n) as (s & Es & Ds & Ss & Ws & Hs); [exact Ssh|]. rewrite Es. cbn [rbind].
  destruct (keep_rows fsub sh (un flog s) B n) as (r & Er & Dr & Sr & Wr & Hr); [exact Wsh|now apply emap_wf|etransitivity; [exact Ds|reflexivity]|exact Ssh|exact Ss|].
  exists r. split; [exact Er|]. split; [etransitivity; [exact Dr|exact Dsh]|]. split; [exact Sr|]. split; [exact Wr|]. intros o V.
  assert (V0 : valid (B ++ [1%nat]) (o ++ [0%nat])) by (apply valid_snoc; exists o, 0%nat; repeat split; auto; lia).
  rewrite (Hr o V). unfold un at 1. rewrite (tget_emap_val flog) by (auto; rewrite Ss; exact V0). rewrite (Hs o V). unfold un. rewrite (emap_row fexp sh B n o Wsh Ssh V), (Hsh o V). unfold un. rewrite (tget_emap_val (fun _ => fstop)) by (auto; rewrite Sm; exact V0). rewrite (Hm o V).
  cbn [dt emap]. rewrite Ds. cbn [dt un emap]. rewrite Dsh. reflexivity.
Qed.
(*@ C106_softmax_any_arithmetic : softmax_cross_entropy in any arithmetic, any shapes and dtypes: with logits broadcastable to labels, both with n > 0 classes on the last axis, every element is minus the dot product - made in the promoted dtype - of the row of labels with the log_softmax of the row of logits - made in the dtype of the logits: subtract the largest logit, then the logarithm of the sum of the exponentials. *)
Lemma ce_gen : forall `{O : Ops} (x l : tensor) (B B' : list nat) (n : nat), twf x -> twf l -> shp l = B ++ [n] -> shp x = B' ++ [n] -> (0 < n)%nat -> broadcasts_to (shp x) (shp l) ->
  exists r, softmax_cross_entropy x l = Ok r /\ joined l x r B /\ forall o, valid B o -> tget r o = fneg (dot_row (dt l) (dt x) (row l o) (log_softmax_row (dt x) (row x (bidx B' o)))).
Proof.
  intros O x l B B' n Wx Wl El Ex Hn Ha. apply broadcasts_iff in Ha. unfold softmax_cross_entropy. rewrite Ha. cbn [rbind]. destruct (log_softmax_gen x B' n Wx Ex Hn) as (s & Es & Ds & Ss & Ws & Hs). rewrite Es. cbn [rbind].
  rewrite El, Ex in Ha. apply assert_snoc in Ha. pose proof Ha as Hb. rewrite bshape_comm in Hb.
  destruct (bin_rows fmul l s B B' B n Wl Ws El Ss Hb) as (w & Ew & Dw & Sw & Ww & Hw). rewrite Ew. cbn [rbind]. destruct (last_drop_val fsum w B n Sw) as (k & Ek & Dk & Sk & Wk & Hk). rewrite Ek. cbn [rbind].
  eexists. split; [reflexivity|]. split; [split; [|split; [exact Sk|now apply emap_wf]]|].
  - change (dt k = promote (dt l) (dt x)). rewrite Dk, Dw, Ds. reflexivity.
  - intros o V. unfold un. rewrite tget_emap_val by (auto; rewrite Sk; exact V). rewrite (Hk o V), (Hw o V). rewrite bidx_same by exact V. destruct (bshape_valid _ _ _ o Ha V) as (V' & _). rewrite (Hs _ V'), Dw, Ds. reflexivity.
Qed.
Lemma safe_norm_row `{O : Ops} d xs eps : safe_norm (mkT d [length xs] xs) eps = norm_row d eps xs.
Proof. unfold safe_norm, norm_row, norm, tsum, tsquare, un, emap. cbn [dt dat]. destruct (fle _ _); reflexivity. Qed.
(*@ C106_cosine_any_arithmetic : cosine_similarity and cosine_distance in any arithmetic, any shapes and dtypes: every row is divided, in its own dtype, by its norm - the square root of the sum of squares, or epsilon if that is not smaller - and the dot product of the two unit rows is made in the promoted dtype; the distance is 1 minus it. *)
Lemma cos_gen : forall `{O : Ops} (x t : tensor) (eps : F) (B B' : list nat) (n : nat), twf x -> twf t -> shp t = B ++ [n] -> shp x = B' ++ [n] -> broadcasts_to (shp x) (shp t) ->
  exists r r', cosine_similarity x t eps = Ok r /\ joined t x r B /\ cosine_distance x t eps = Ok r' /\ joined t x r' B /\
  forall o, valid B o ->
    tget r o = dot_row (dt t) (dt x) (unit_row (dt t) eps (row t o)) (unit_row (dt x) eps (row x (bidx B' o))) /\
    tget r' o = fsub (promote (dt t) (dt x)) (fcast (promote (dt t) (dt x)) fone) (tget r o).
Proof.
  intros O x t eps B B' n Wx Wt Et Ex Ha. apply broadcasts_iff in Ha. unfold cosine_distance, cosine_similarity. rewrite Ha. cbn [rbind].
  assert (U : forall (t : tensor) B, twf t -> shp t = B ++ [n] -> exists k r, row_norms t eps = Ok k /\ bin fdiv t k = Ok r /\ dt r = dt t /\ shp r = B ++ [n] /\ twf r /\ forall o, valid B o -> row r o = unit_row (dt t) eps (row t o)).
  { clear. intros t B W E. unfold row_norms. destruct (last_keep_val (fun d l => safe_norm (mkT d [length l] l) eps) t B n E) as (k & Ek & Dk & Sk & Wk & Hk). exists k.
    destruct (keep_rows fdiv t k B n W Wk Dk E Sk) as (r & Er & Dr & Sr & Wr & Hr). exists r. split; [exact Ek|]. split; [exact Er|]. split; [exact Dr|]. split; [exact Sr|]. split; [exact Wr|]. intros o V. rewrite (Hr o V), (Hk o V), safe_norm_row. reflexivity. }
  destruct (U t B Wt Et) as (kt & ut & Ekt & Eut & Dut & Sut & Wut & Hut). destruct (U x B' Wx Ex) as (kx & ux & Ekx & Eux & Dux & Sux & Wux & Hux). rewrite Ekt. cbn [rbind]. rewrite Eut. cbn [rbind]. rewrite Ekx. cbn [rbind]. rewrite Eux. cbn [rbind].
  rewrite Et, Ex in Ha. apply assert_snoc in Ha. pose proof Ha as Hb. rewrite bshape_comm in Hb.
  destruct (bin_rows fmul ut ux B B' B n Wut Wux Sut Sux Hb) as (w & Ew & Dw & Sw & Ww & Hw). rewrite Ew. cbn [rbind]. destruct (last_drop_val fsum w B n Sw) as (k & Ek & Dk & Sk & Wk & Hk). rewrite Ek. cbn [rbind].
  assert (Dk' : dt k = promote (dt t) (dt x)) by (rewrite Dk, Dw, Dut, Dux; reflexivity).
  exists k. eexists. split; [reflexivity|]. split; [split; [exact Dk'|split; auto]|]. split; [reflexivity|]. split; [split; [exact Dk'|split; [exact Sk|now apply emap_wf]]|].
  intros o V. split.
  - rewrite (Hk o V), (Hw o V), bidx_same by exact V. destruct (bshape_valid _ _ _ o Ha V) as (V' & _). rewrite (Hut o V), (Hux _ V'), Dw, Dut, Dux. reflexivity.
  - unfold sl. rewrite tget_emap_val by (auto; rewrite Sk; exact V). now rewrite Dk'.
Qed.

(** ** IEEE: softmax *)
(** What is asked of the platform's exp, log and sum (any accuracy, any order of accumulation). *)
Definition exp_ends (L : Libm) : Prop := forall d, (forall s, l_exp L d (Zr s) = Nz 1) /\ l_exp L d (If true) = Zr false.
Definition log_sane (L : Libm) : Prop := forall d x, in_format d x -> ffin x = true -> 1 <= fval x ->
  in_format d (l_log L d x) /\ ffin (l_log L d x) = true /\ 0 <= fval (l_log L d x) <= IZR (femax d).
(** a sum of at most 2^(emax-1) numbers of [0,1] does not overflow; a sum of non-positive numbers is non-positive;
    a sum whose terms are zero except possibly one is that one. *)
Definition sum_count (L : Libm) : Prop := forall d l, Forall (fun x => in_format d x /\ ffin x = true /\ 0 <= fval x <= 1) l -> INR (length l) <= bpow radix2 (femax d - 1) -> ffin (l_sum L d l) = true.
Definition sum_neg (L : Libm) : Prop := forall d l, Forall (fun x => in_format d x /\ fleq x (Zr false)) l -> fleq (l_sum L d l) (Zr false).
Definition sum_one (L : Libm) : Prop := forall d a x b, in_format d x -> ffin x = true -> Forall (fun y => exists s, y = Zr s) a -> Forall (fun y => exists s, y = Zr s) b -> ffin (l_sum L d (a ++ x :: b)) = true /\ fval (l_sum L d (a ++ x :: b)) = fval x.
(** The range of logits: 2^13, 2^125, 2^125, 2^1021 for float16, bfloat16, float32, float64. *)
Definition logit_ok (d : fdt) (x : fl) : Prop := in_format d x /\ ffin x = true /\ Rabs (fval x) <= bpow radix2 (femax d - 3).

Section Soft.
  Context `{L : Libm}.
  Lemma max_list_fl d xs : xs <> [] -> Forall (logit_ok d) xs -> let m := @max_list (FlOps L) xs in In m xs /\ logit_ok d m /\ Forall (fun x => fval x <= fval m) xs.
  Proof.
    intros Hn H. destruct xs as [|x xs]; [easy|]. cbn [max_list]. clear Hn.
    assert (G : forall r a, logit_ok d a -> Forall (logit_ok d) r -> let m := fold_left max_ r a in In m (a :: r) /\ fval a <= fval m /\ Forall (fun x => fval x <= fval m) r).
    { clear. induction r as [|b r IH]; intros a Ha Hr; cbn [fold_left]; [cbn; split; [now left|]; split; [lra|constructor]|]. inversion Hr as [|? ? Hb Hr']; subst.
      destruct (max_val a b) as (M1 & M2); [apply Ha|apply Hb|]. assert (S : max_ a b = a \/ max_ a b = b) by (destruct Ha as (_ & Fa & _), Hb as (_ & Fb & _); destruct (max_spec a b) as [(-> & _)|(-> & _)]; auto; [now destruct a|now destruct b]).
      assert (Hm : logit_ok d (max_ a b)) by (destruct S as [-> | ->]; assumption).
      destruct (IH (max_ a b) Hm Hr') as (I1 & I2 & I3). cbn zeta. pose proof (Rmax_l (fval a) (fval b)). pose proof (Rmax_r (fval a) (fval b)). split; [|split; [lra|constructor; [lra|exact I3]]].
      destruct I1 as [I1|I1]; [|right; now right]. destruct S as [S|S]; rewrite S in I1 at 1; [left; exact I1|right; left; exact I1]. }
    inversion H as [|? ? Hx Hxs]; subst. destruct (G xs x Hx Hxs) as (G1 & G2 & G3). split; [exact G1|]. split; [|constructor; assumption]. rewrite Forall_forall in H. now apply H.
  Qed.
  Variables (HE : exp_sane L) (HE0 : exp_ends L) (HLg : log_sane L) (HS : sum_sane L) (HC : sum_count L).
  Lemma bp3 d : bpow radix2 (femax d - 3) + bpow radix2 (femax d - 3) = bpow radix2 (femax d - 2).
  Proof. replace (femax d - 2)%Z with (1 + (femax d - 3))%Z by lia. rewrite bpow_plus. change (bpow radix2 1) with 2. lra. Qed.
  Lemma bp2 d : bpow radix2 (femax d - 2) + bpow radix2 (femax d - 2) = bpow radix2 (femax d - 1).
  Proof. replace (femax d - 1)%Z with (1 + (femax d - 2))%Z by lia. rewrite bpow_plus. change (bpow radix2 1) with 2. lra. Qed.
  Lemma femax_small d : IZR (femax d) <= bpow radix2 (femax d - 2).
  Proof.
    rewrite <- (IZR_Zpower radix2) by (destruct d; cbn; lia). apply IZR_le. destruct d; [vm_compute; discriminate| | |]; (apply Z.le_trans with (2 ^ 11)%Z; [vm_compute; discriminate|]; apply Z.pow_le_mono_r; cbn; lia).
  Qed.
  (** Every entry of log_softmax is finite and <= 0; *)
  Lemma lsm_fl d xs : xs <> [] -> Forall (logit_ok d) xs -> INR (length xs) <= bpow radix2 (femax d - 1) ->
    Forall (fun y => in_format d y /\ ffin y = true /\ fval y <= 0) (@log_softmax_row (FlOps L) d xs).
  Proof.
    intros Hn H Hc. unfold log_softmax_row. destruct (max_list_fl d xs Hn H) as (M1 & (M2 & M3 & M4) & M5). set (m := @max_list (FlOps L) xs) in *. change (@F (FlOps L)) with fl in m. clearbody m. cbn [fstop fsub flog fsum fexp FlOps].
    assert (Sh : forall x, In x xs -> let y := sub_ (fprec d) (femax d) x m in in_format d y /\ ffin y = true /\ - bpow radix2 (femax d - 2) <= fval y <= 0 /\ (x = m -> exists s, y = Zr s)).
    { intros x Hx. rewrite Forall_forall in H, M5. destruct (H x Hx) as (X1 & X2 & X3). specialize (M5 x Hx). cbn zeta. unfold sub_. apply Rabs_le_inv in X3, M4. pose proof (bp3 d) as B3. pose proof (bpow_gt_0 radix2 (femax d - 2)) as Bp.
      assert (R : - bpow radix2 (femax d - 2) <= rnd d (fval x + fval (opp_ m)) <= 0).
      { rewrite opp_val. split; [|apply rnd_le0; lra]. rewrite <- (rnd_id d (- bpow radix2 (femax d - 2))) by (apply fmt_opp, fmt_bpow; destruct d; cbn; lia). apply rnd_le. lra. }
      assert (T : bpow radix2 (femax d - 2) < top d) by (apply bpow_lt; lia).
      destruct (add_fin_val d x (opp_ m) X2 ltac:(now rewrite opp_fin)) as (A & B); [apply Rabs_def1; lra|]. split; [apply add_format|]. split; [exact A|]. rewrite B. split; [exact R|].
      intros ->. assert (Z0 : fval (add_ (fprec d) (femax d) m (opp_ m)) = 0) by (rewrite B, opp_val; replace (fval m + - fval m) with 0 by lra; apply rnd_0).
      pose proof (add_format d m (opp_ m)) as If'. destruct (add_ (fprec d) (femax d) m (opp_ m)) as [s|r| |]; try discriminate; [eauto|]. destruct If' as (N & _). cbn in Z0. easy. }
    set (sh := map (fun x => sub_ (fprec d) (femax d) x m) xs). assert (ES : Forall (fun x => in_format d x /\ ffin x = true /\ 0 <= fval x <= 1) (map (l_exp L d) sh)).
    { apply Forall_map, Forall_forall. intros y Hy. unfold sh in Hy. apply in_map_iff in Hy as (x & <- & Hx). destruct (Sh x Hx) as (A & B & C & _). apply HE; auto. apply C. }
    assert (Fs := HC d _ ES). rewrite !map_length in Fs. unfold sh in Fs at 1. rewrite map_length in Fs. specialize (Fs Hc).
    destruct (HS d (map (l_exp L d) sh)) as (S1 & S2 & S3); [eapply Forall_impl; [|exact ES]; intros y Hy; apply Hy|eapply Forall_impl; [|exact ES]; intros y (_ & Fy & Py); destruct y; try discriminate; cbn in *; auto; apply Py|].
    assert (G1 : 1 <= fval (l_sum L d (map (l_exp L d) sh))).
    { destruct (Sh m M1) as (_ & _ & _ & Z). destruct (Z eq_refl) as (s & Es). specialize (S3 (Nz 1)). assert (In (Nz 1) (map (l_exp L d) sh)) as Hin. { apply in_map_iff. exists (Zr s). split; [apply HE0|]. unfold sh. apply in_map_iff. exists m. split; [exact Es|exact M1]. }
      specialize (S3 Hin). apply le_fin in S3; auto. }
    destruct (HLg d _ S1 Fs G1) as (Q1 & Q2 & Q3). set (q := l_log L d _) in *. clearbody q.
    apply Forall_map, Forall_forall. intros y Hy. unfold sh in Hy. apply in_map_iff in Hy as (x & <- & Hx). destruct (Sh x Hx) as (A & B & C & _). set (y := sub_ _ _ x m) in *. clearbody y. unfold sub_.
    pose proof (femax_small d) as FM. pose proof (bp2 d) as B2. assert (T : bpow radix2 (femax d - 1) < top d) by (apply bpow_lt; lia).
    assert (R : - bpow radix2 (femax d - 1) <= rnd d (fval y + fval (opp_ q)) <= 0).
    { rewrite opp_val. split; [|apply rnd_le0; lra]. rewrite <- (rnd_id d (- bpow radix2 (femax d - 1))) by (apply fmt_opp, fmt_bpow; destruct d; cbn; lia). apply rnd_le. lra. }
    destruct (add_fin_val d y (opp_ q) B ltac:(now rewrite opp_fin)) as (A' & B'); [pose proof (bpow_gt_0 radix2 (femax d - 1)); apply Rabs_def1; lra|]. split; [apply add_format|]. split; [exact A'|]. rewrite B'. apply R.
  Qed.
End Soft.

Definition label_ok (d : fdt) (x : fl) : Prop := in_format d x /\ ffin x = true /\ 0 <= fval x <= 1.
Lemma Forall2_map2 {A B C} (f : A -> B -> C) (P : A -> Prop) (Q : B -> Prop) (R : C -> Prop) l m : (forall a b, P a -> Q b -> R (f a b)) -> Forall P l -> Forall Q m -> Forall R (map2 f l m).
Proof. intros H Hl. revert m. induction Hl as [|a l Ha Hl IH]; intros m Hm; [destruct m; constructor|]. destruct Hm; cbn; constructor; auto. Qed.

Lemma firstn_In {A} j (l : list A) v : In v (firstn j l) -> In v l.
Proof. intros H. rewrite <- (firstn_skipn j l). apply in_or_app. now left. Qed.
Lemma skipn_In {A} j (l : list A) v : In v (skipn j l) -> In v l.
Proof. intros H. rewrite <- (firstn_skipn j l). apply in_or_app. now right. Qed.
Lemma nth_error_firstn_lt {A} (l : list A) : forall j i, (i < j)%nat -> nth_error (firstn j l) i = nth_error l i.
Proof. induction l as [|a l IH]; intros [|j] [|i] H; cbn; try lia; auto. apply IH. lia. Qed.
Lemma nth_error_skipn' {A} (l : list A) : forall j i, nth_error (skipn j l) i = nth_error l (j + i).
Proof. induction l as [|a l IH]; intros [|j] i; cbn [skipn Nat.add]; try reflexivity; [now destruct i|]. apply IH. Qed.
Section Dot.
  Context `{L : Libm}.
  Variables (dl dx : fdt).
  Local Notation D := (promote dl dx).
  Lemma prod_fl a b : label_ok dl a -> in_format dx b -> ffin b = true -> fval b <= 0 ->
    let z := @fmul (FlOps L) D (@conv (FlOps L) dl D a) (@conv (FlOps L) dx D b) in in_format D z /\ ffin z = true /\ fval b <= fval z <= 0 /\ (fval a = 1 -> fval z = fval b) /\ (fval a = 0 -> exists s, z = Zr s).
  Proof.
    intros (A1 & A2 & A3) B1 B2 B3. cbn zeta. rewrite conv_up by exact A1. rewrite conv_up' by exact B1. cbn [fmul FlOps].
    assert (Up : in_format D b) by (rewrite promote_comm; now apply up_format). destruct (fin_fmt D b Up) as (P1 & P2).
    assert (T0 : Rabs 0 < top D) by (rewrite Rabs_R0; apply top_pos).
    destruct (mul_between D a b (fval b) 0) as (Y1 & Y2); auto; [apply fmt_0|nra|].
    split; [apply mul_format|]. split; [exact Y1|]. split; [exact Y2|]. split; intros E.
    - destruct (mul_between D a b (fval b) (fval b)) as (_ & Z); auto; [rewrite E; lra|lra].
    - destruct (mul_between D a b 0 0) as (_ & Z); auto; try apply fmt_0; [rewrite E; lra|]. pose proof (mul_format D a b) as I'. destruct (mul_ (fprec D) (femax D) a b) as [s|r| |]; try discriminate; [eauto|]. destruct I' as (N & _). cbn in Z. lra.
  Qed.
  Lemma map2_split {A B C} (f : A -> B -> C) l m j a b : length l = length m -> nth_error l j = Some a -> nth_error m j = Some b ->
    map2 f l m = map2 f (firstn j l) (firstn j m) ++ f a b :: map2 f (skipn (S j) l) (skipn (S j) m).
  Proof. revert m j. induction l as [|u l IH]; intros [|v m] [|j] E Ha Hb; cbn in *; try discriminate; [injection Ha as ->; injection Hb as ->; reflexivity|]. rewrite (IH m j); auto. Qed.
End Dot.
Lemma lsm_length `{O : Ops} d xs : length (log_softmax_row d xs) = length xs.
Proof. unfold log_softmax_row. now rewrite !map_length. Qed.

(*@ C106_softmax_ieee : softmax_cross_entropy in IEEE arithmetic, any shapes and dtypes, exp and log of any accuracy, sums in any order: wherever the row of logits is finite and at most 2^(emax-3) in magnitude (8192 in float16, 4e37 in bfloat16 and float32) and the labels lie in [0,1], the loss is never NaN and never negative; no exponential overflows, however large the logits; with a one-hot row of labels (no class smoothing) it is finite and is exactly minus the log-probability of the labelled class. *)
Lemma ce_ieee : forall `{L : Libm} (x l : tensor) (B B' : list nat) (n : nat), exp_sane L -> exp_ends L -> log_sane L -> sum_sane L -> sum_count L -> sum_neg L -> sum_one L ->
  twf x -> twf l -> tfmt x -> tfmt l -> shp l = B ++ [n] -> shp x = B' ++ [n] -> (0 < n)%nat -> INR n <= bpow radix2 (femax (dt x) - 1) -> broadcasts_to (shp x) (shp l) ->
  exists r, softmax_cross_entropy x l = Ok r /\ joined l x r B /\
    forall o, valid B o -> Forall (fun v => fisfinite v = true /\ Rabs (fval v) <= bpow radix2 (femax (dt x) - 3)) (row x (bidx B' o)) ->
      Forall (fun v => fle fzero v = true /\ fle v fone = true) (row l o) ->
      fisnan (tget r o) = false /\ fle fzero (tget r o) = true /\
      forall j y, nth_error (row l o) j = Some (Nz 1) -> (forall i v, nth_error (row l o) i = Some v -> i <> j -> feqb v fzero = true) ->
        nth_error (log_softmax_row (dt x) (row x (bidx B' o))) j = Some y -> fisfinite (tget r o) = true /\ fval (tget r o) = - fval y.
Proof.
  intros L x l B B' n HE HE0 HLg HS HC HN H1 Wx Wl Tx Tl El Ex Hn Hc Ha. destruct (ce_gen (O := FlOps L) x l B B' n Wx Wl El Ex Hn Ha) as (r & Er & Jr & Hr).
  exists r. split; [exact Er|]. split; [exact Jr|]. intros o V Hx Hl. rewrite (Hr o V). unfold dot_row. cbn [fneg fsum fisnan fle fisfinite FlOps]. rewrite fl0 in *. cbn [fisfinite fle feqb FlOps] in *.
  assert (Rx : Forall (in_format (dt x)) (@row (FlOps L) x (bidx B' o))) by (unfold row; apply Forall_map, Forall_forall; intros j _; now apply tget_fmt).
  assert (Rl : Forall (in_format (dt l)) (@row (FlOps L) l o)) by (unfold row; apply Forall_map, Forall_forall; intros j _; now apply tget_fmt).
  assert (Ln : length (@row (FlOps L) x (bidx B' o)) = n) by (rewrite row_length; exact (eq_trans (f_equal (fun s => last s 0%nat) Ex) (last_snoc _ _ _))).
  assert (Ll : length (@row (FlOps L) l o) = n) by (rewrite row_length; exact (eq_trans (f_equal (fun s => last s 0%nat) El) (last_snoc _ _ _))).
  set (xs := @row (FlOps L) x (bidx B' o)) in *. set (ls := @row (FlOps L) l o) in *. change (@F (FlOps L)) with fl in *. clearbody xs ls.
  assert (Ox : Forall (logit_ok (dt x)) xs). { rewrite Forall_forall in *. intros v Hv. split; [now apply Rx|now apply Hx]. }
  assert (Ol : Forall (label_ok (dt l)) ls).
  { rewrite Forall_forall in *. intros v Hv. destruct (Hl v Hv) as (L0 & L1). split; [now apply Rl|]. rewrite fl1 in L1. assert (Fv : ffin v = true) by (destruct v as [| |[|]|]; try discriminate; reflexivity). apply le_fin in L0; auto. apply le_fin in L1; auto. }
  assert (Oy := lsm_fl HE HE0 HLg HS HC (dt x) xs ltac:(intros ->; cbn in Ln; lia) Ox ltac:(now rewrite Ln)). pose proof (lsm_length (O := FlOps L) (dt x) xs) as Ly. set (ys := @log_softmax_row (FlOps L) (dt x) xs) in *. change (@F (FlOps L)) with fl in *. clearbody ys.
  set (D := promote (dt l) (dt x)). set (f := fun a b => @fmul (FlOps L) D (@conv (FlOps L) (dt l) D a) (@conv (FlOps L) (dt x) D b)).
  assert (FN : Forall (fun z => in_format D z /\ fleq z (Zr false)) (map2 f ls ys)).
  { eapply Forall2_map2; [|exact Ol|exact Oy]. intros a b A (B1 & B2 & B3). destruct (prod_fl (L := L) (dt l) (dt x) a b A B1 B2 B3) as (P1 & P2 & P3 & _). split; [exact P1|]. apply le_fin; auto. apply P3. }
  pose proof (HN D _ FN) as SN. split; [|split].
  - change (isnan_ (opp_ (l_sum L D (map2 f ls ys))) = false). destruct (l_sum L D (map2 f ls ys)); try reflexivity. discriminate.
  - change (le_ (Zr false) (opp_ (l_sum L D (map2 f ls ys))) = true). apply nonneg_le. destruct (l_sum L D (map2 f ls ys)) as [|q|[|]|]; try easy. apply le_fin in SN; auto. cbn in *. lra.
  - intros j y Ej Hz Ey. change (ffin (opp_ (l_sum L D (map2 f ls ys))) = true /\ fval (opp_ (l_sum L D (map2 f ls ys))) = - fval y).
    rewrite (map2_split f ls ys j (Nz 1) y) by first [exact Ej|exact Ey|exact (eq_trans Ll (eq_trans (eq_sym Ln) (eq_sym Ly)))].
    assert (Ia : label_ok (dt l) (Nz 1)) by (rewrite Forall_forall in Ol; apply Ol; now apply nth_error_In in Ej).
    assert (Iy : in_format (dt x) y /\ ffin y = true /\ fval y <= 0) by (rewrite Forall_forall in Oy; apply Oy; now apply nth_error_In in Ey). destruct Iy as (Y1 & Y2 & Y3).
    destruct (prod_fl (L := L) (dt l) (dt x) (Nz 1) y Ia Y1 Y2 Y3) as (P1 & P2 & _ & P3 & _). specialize (P3 eq_refl).
    assert (Z : forall part : list fl -> list fl, (forall v, In v (part ls) -> eq_ v (Zr false) = true) -> (forall v, In v (part ls) -> In v ls) -> forall ys', (forall v, In v ys' -> In v ys) -> Forall (fun y => exists s, y = Zr s) (map2 f (part ls) ys')).
    { intros part K1 K2 ys' K3. eapply (Forall2_map2 f (fun v => label_ok (dt l) v /\ eq_ v (Zr false) = true) (fun y => in_format (dt x) y /\ ffin y = true /\ fval y <= 0)).
      - intros a b ((A1 & A2 & A3) & A4) (B1 & B2 & B3). destruct (prod_fl (L := L) (dt l) (dt x) a b (conj A1 (conj A2 A3)) B1 B2 B3) as (_ & _ & _ & _ & Q). apply Q. unfold eq_ in A4. rewrite cmp_fin in A4 by auto. revert A4. case Rcompare_spec; intros; try discriminate. assumption.
      - apply Forall_forall. intros v Hv. split; [|now apply K1]. rewrite Forall_forall in Ol. now apply Ol, K2.
      - apply Forall_forall. intros v Hv. rewrite Forall_forall in Oy. now apply Oy, K3. }
    destruct (H1 D (map2 f (firstn j ls) (firstn j ys)) (f (Nz 1) y) (map2 f (skipn (S j) ls) (skipn (S j) ys))) as (R1 & R2); [exact P1|exact P2| | |].
    + apply (Z (firstn j)); [|intros v Hv; now apply firstn_In in Hv|intros v Hv; now apply firstn_In in Hv]. intros v Hv. apply In_nth_error in Hv as (i & Ei). assert (Hi : (i < j)%nat). { assert (i < length (firstn j ls))%nat by (apply nth_error_Some; congruence). rewrite firstn_length in *. lia. } apply (Hz i); [|lia]. rewrite <- Ei. symmetry. now apply nth_error_firstn_lt.
    + apply (Z (skipn (S j))); [|intros v Hv; now apply skipn_In in Hv|intros v Hv; now apply skipn_In in Hv]. intros v Hv. apply In_nth_error in Hv as (i & Ei). rewrite nth_error_skipn' in Ei. apply (Hz (S j + i)%nat); [exact Ei|lia].
    + rewrite opp_fin, opp_val. split; [exact R1|]. refine (f_equal Ropp (eq_trans R2 _)). exact P3.
Qed.

(*@ C106_masked_logit_nan : (finding) masking a class by the logit -inf, whose label is 0, makes the whole loss NaN, in every dtype and whatever the other logits and labels are: 0 * -inf. (Platform assumption: a sum with a NaN is NaN.) *)
Lemma ce_masked : forall `{L : Libm} (x l : tensor) (B B' : list nat) (n : nat) o j, sum_nan L -> twf x -> twf l -> shp l = B ++ [n] -> shp x = B' ++ [n] -> (0 < n)%nat -> broadcasts_to (shp x) (shp l) ->
  valid B o -> nth_error (row x (bidx B' o)) j = Some (If true) -> (exists s, nth_error (row l o) j = Some (Zr s)) ->
  exists r, softmax_cross_entropy x l = Ok r /\ tget r o = Na.
Proof.
  intros L x l B B' n o j HN Wx Wl El Ex Hn Ha V Ej (s & Es). destruct (ce_gen (O := FlOps L) x l B B' n Wx Wl El Ex Hn Ha) as (r & Er & Jr & Hr).
  exists r. split; [exact Er|]. refine (eq_trans (Hr o V) _). unfold dot_row. cbn [fneg fsum FlOps]. set (D := promote _ _).
  assert (Ln : length (@row (FlOps L) x (bidx B' o)) = n) by (rewrite row_length; exact (eq_trans (f_equal (fun s => last s 0%nat) Ex) (last_snoc _ _ _))).
  assert (Ll : length (@row (FlOps L) l o) = n) by (rewrite row_length; exact (eq_trans (f_equal (fun s => last s 0%nat) El) (last_snoc _ _ _))).
  set (xs := @row (FlOps L) x (bidx B' o)) in *. set (ls := @row (FlOps L) l o) in *. change (@F (FlOps L)) with fl in *. clearbody xs ls.
  set (f := fun a b => @fmul (FlOps L) D (@conv (FlOps L) (dt l) D a) (@conv (FlOps L) (dt x) D b)).
  assert (K : forall d a, sub_ (fprec d) (femax d) (If true) a = If true \/ sub_ (fprec d) (femax d) (If true) a = Na) by (intros d [|?|[|]|]; cbn; auto).
  assert (Y : nth_error (@log_softmax_row (FlOps L) (dt x) xs) j = Some (If true) \/ nth_error (@log_softmax_row (FlOps L) (dt x) xs) j = Some Na).
  { unfold log_softmax_row. rewrite !nth_error_map. change (@F (FlOps L)) with fl. rewrite Ej. cbn [option_map fsub FlOps].
    set (m := fstop _). change (@F (FlOps L)) with fl in m. set (q := flog _ _). change (@F (FlOps L)) with fl in q. clearbody m q.
    destruct (K (dt x) m) as [-> | ->]; [destruct (K (dt x) q) as [-> | ->]; auto|right; reflexivity]. }
  assert (N : In Na (map2 f ls (@log_softmax_row (FlOps L) (dt x) xs))).
  { assert (exists y, nth_error (@log_softmax_row (FlOps L) (dt x) xs) j = Some y /\ f (Zr s) y = Na) as (y & Ey & Ef).
    { assert (C : forall d v, (v = If true \/ v = Na \/ v = Zr s) -> @conv (FlOps L) d D v = v) by (intros d v [-> | [-> | ->]]; unfold conv; destruct (fdt_eqb d D); reflexivity).
      destruct Y as [Y|Y]; eexists; (split; [exact Y|]); unfold f; rewrite !C by auto; cbn; reflexivity. }
    rewrite (map2_split f ls _ j (Zr s) y) by first [exact Es|exact Ey|exact (eq_trans Ll (eq_trans (eq_sym Ln) (eq_sym (lsm_length (O := FlOps L) (dt x) xs))))]. apply in_or_app. right. left. exact Ef. }
  pose proof (HN D _ N) as Z. exact (f_equal opp_ Z).
Qed.

Lemma zero_mul d s b : ffin b = true -> exists s', mul_ (fprec d) (femax d) (Zr s) b = Zr s'.
Proof.
  intros Fb. destruct (mul_between d (Zr s) b 0 0) as (Y1 & Y2); auto; try apply fmt_0; try (rewrite Rabs_R0; apply top_pos); [cbn [fval]; lra|].
  pose proof (mul_format d (Zr s) b) as I'. destruct (mul_ (fprec d) (femax d) (Zr s) b) as [s'|r| |]; try discriminate; [eauto|]. destruct I' as (N & _). cbn in Y2. lra.
Qed.
(*@ C106_cosine_overflow : (finding) if the square of a single element of a row overflows its dtype - |x| >= 256 in float16, 1.8e19 in float32 and bfloat16 - its norm is infinite and cosine_similarity is 0 (so cosine_distance is 1), whatever the rows are, even for identical rows, for any finite epsilon. *)
Lemma cos_overflow : forall `{L : Libm} (x t : tensor) (eps : fl) (B B' : list nat) (n : nat) o j v, sum_sane L -> sum_one L -> twf x -> twf t -> tfmt x -> tfmt t -> shp t = B ++ [n] -> shp x = B' ++ [n] -> broadcasts_to (shp x) (shp t) ->
  valid B o -> Forall (fun v => fisfinite v = true) (row t o) -> fisfinite (fcast (dt t) eps) = true -> Forall (fun u => fisfinite u = true) (unit_row (dt x) eps (row x (bidx B' o))) ->
  nth_error (row t o) j = Some v -> fmul (dt t) v v = If false ->
  exists r r', cosine_similarity x t eps = Ok r /\ cosine_distance x t eps = Ok r' /\ feqb (tget r o) fzero = true /\ feqb (tget r' o) fone = true.
Proof.
  intros L x t eps B B' n o j v HS H1 Wx Wt Tx Tt Et Ex Ha V Fr Fe Fu Ej Ov. destruct (cos_gen (O := FlOps L) x t eps B B' n Wx Wt Et Ex Ha) as (r & r' & Er & Jr & Er' & Jr' & Hr).
  exists r, r'. split; [exact Er|]. split; [exact Er'|]. destruct (Hr o V) as (Hr1 & Hr2). clear Hr.
  assert (Rt : Forall (in_format (dt t)) (@row (FlOps L) t o)) by (unfold row; apply Forall_map, Forall_forall; intros i _; now apply tget_fmt).
  assert (Ln : length (@row (FlOps L) x (bidx B' o)) = n) by (rewrite row_length; exact (eq_trans (f_equal (fun s => last s 0%nat) Ex) (last_snoc _ _ _))).
  assert (Ll : length (@row (FlOps L) t o) = n) by (rewrite row_length; exact (eq_trans (f_equal (fun s => last s 0%nat) Et) (last_snoc _ _ _))).
  assert (Ix : Forall (in_format (dt x)) (@unit_row (FlOps L) (dt x) eps (@row (FlOps L) x (bidx B' o)))) by (unfold unit_row; apply Forall_map, Forall_forall; intros i _; apply div_format).
  assert (Lu : length (@unit_row (FlOps L) (dt x) eps (@row (FlOps L) x (bidx B' o))) = n) by (unfold unit_row; rewrite map_length; exact Ln).
  set (us := @unit_row (FlOps L) (dt x) eps (@row (FlOps L) x (bidx B' o))) in *. set (ts := @row (FlOps L) t o) in *. change (@F (FlOps L)) with fl in *. clearbody us ts. clear Ln.
  assert (Nn : @norm_row (FlOps L) (dt t) eps ts = If false).
  { unfold norm_row. cbn [fsqrt fsum fmul fle fcast FlOps]. set (sq := map (fun x => mul_ (fprec (dt t)) (femax (dt t)) x x) ts).
    destruct (HS (dt t) sq) as (_ & S2 & S3). { apply Forall_map, Forall_forall. intros y _. apply mul_format. } { apply Forall_map, Forall_forall. intros y Hy. apply mul_sq. rewrite Forall_forall in Fr. specialize (Fr y Hy). cbn in Fr. now destruct y. }
    assert (Ei : l_sum L (dt t) sq = If false). { specialize (S3 (If false)). assert (In (If false) sq) as Hin by (unfold sq; apply in_map_iff; exists v; split; [exact Ov|now apply nth_error_In in Ej]). specialize (S3 Hin). destruct (l_sum L (dt t) sq) as [| |[|]|]; cbn in S3; try discriminate; reflexivity. }
    refine (eq_trans (y := let n := sqrt_ (fprec (dt t)) (femax (dt t)) (l_sum L (dt t) sq) in if le_ n (cast_ (dt t) eps) then cast_ (dt t) eps else n) eq_refl _). rewrite Ei. cbn [sqrt_]. cbn [fisfinite fcast FlOps] in Fe. destruct (cast_ (dt t) eps) as [| |[|]|]; try discriminate; reflexivity. }
  assert (Uz : Forall (fun y => exists s, y = Zr s) (@unit_row (FlOps L) (dt t) eps ts)).
  { unfold unit_row. apply Forall_map, Forall_forall. intros y Hy. change (@F (FlOps L)) with fl. rewrite Nn. rewrite Forall_forall in Fr. specialize (Fr y Hy). cbn [fdiv FlOps fisfinite] in *. destruct y; try discriminate; cbn; eauto. }
  set (D := promote (dt t) (dt x)) in *. set (f := fun a b => @fmul (FlOps L) D (@conv (FlOps L) (dt t) D a) (@conv (FlOps L) (dt x) D b)).
  assert (Pz : Forall (fun y => exists s, y = Zr s) (map2 f (@unit_row (FlOps L) (dt t) eps ts) us)).
  { eapply (Forall2_map2 f (fun y => exists s, y = Zr s) (fun u => in_format (dt x) u /\ ffin u = true)); [|exact Uz|].
    - intros a b (s & ->) (I1 & I2). unfold f, D. rewrite conv_up' by exact I1. assert (C : @conv (FlOps L) (dt t) (promote (dt t) (dt x)) (Zr s) = Zr s) by (unfold conv; destruct (fdt_eqb _ _); reflexivity). rewrite C. now apply zero_mul.
    - rewrite Forall_forall in *. intros y Hy. split; [now apply Ix|now apply Fu]. }
  assert (Lz : length (map2 f (@unit_row (FlOps L) (dt t) eps ts) us) <> 0%nat).
  { assert (j < n)%nat by (rewrite <- Ll; apply nth_error_Some; congruence). unfold unit_row. destruct ts as [|t0 ts]; [cbn in Ll; lia|]. destruct us as [|u0 us]; [cbn in Lu; lia|]. cbn. lia. }
  assert (Hz : ffin (@tget (FlOps L) r o) = true /\ fval (@tget (FlOps L) r o) = 0).
  { assert (E : @tget (FlOps L) r o = l_sum L D (map2 f (@unit_row (FlOps L) (dt t) eps ts) us)) by exact Hr1. rewrite E. destruct (map2 f (@unit_row (FlOps L) (dt t) eps ts) us) as [|z zs]; [easy|]. inversion Pz as [|? ? (s & ->) Pzs]; subst. destruct (H1 D [] (Zr s) zs Logic.I eq_refl ltac:(constructor) Pzs) as (R1 & R2). split; [exact R1|exact R2]. }
  destruct Hz as (Z1 & Z2). rewrite fl0, fl1. cbn [feqb FlOps].
  split; [unfold eq_; rewrite cmp_fin by auto; rewrite Z2; cbn [fval]; rewrite Rcompare_Eq by reflexivity; reflexivity|].
  assert (E2 : @tget (FlOps L) r' o = sub_ (fprec D) (femax D) (@fcast (FlOps L) D (@fone (FlOps L))) (@tget (FlOps L) r o)) by exact Hr2. rewrite E2, cast1. unfold sub_.
  destruct (add_fin_val D (Nz 1) (opp_ (@tget (FlOps L) r o))) as (A1 & A2); [reflexivity|now rewrite opp_fin|rewrite opp_val; change (@F (FlOps L)) with fl in *; rewrite Z2; cbn [fval]; replace (1 + - 0) with 1 by lra; rewrite rnd_id by apply fmt_1; rewrite Rabs_R1; change 1 with (bpow radix2 0); apply bpow_lt; destruct D; reflexivity|].
  unfold eq_. change (@F (FlOps L)) with fl in *. rewrite cmp_fin by auto. rewrite A2, opp_val, Z2. cbn [fval]. replace (1 + - 0) with 1 by lra. rewrite rnd_id by apply fmt_1. rewrite Rcompare_Eq by reflexivity. reflexivity.
Qed.

(** The correctly rounded platform with left-to-right sums meets the assumptions. *)
Lemma cr_exp_ends : exp_ends cr_libm.
Proof. intros d. split; reflexivity. Qed.
Lemma cr_log : log_sane cr_libm.
Proof.
  intros d x Ix Fx Hx. destruct x as [s|r| |]; try discriminate; cbn [l_log cr_libm fval] in *; [lra|].
  rewrite (Rlt_bool_false r) by lra. split; [apply rto_format|]. destruct Ix as (_ & _ & I3). rewrite Rabs_pos_eq in I3 by lra.
  assert (Hi : (Z.abs (femax d) < 2 ^ fprec d)%Z) by (destruct d; vm_compute; reflexivity).
  assert (L0 : 0 <= ln r). { rewrite <- ln_1. destruct (Req_dec r 1) as [->|]; [lra|left; apply ln_increasing; lra]. }
  assert (L1 : ln r <= IZR (femax d)).
  { left. eapply Rlt_le_trans; [apply ln_increasing; [lra|exact I3]|]. assert (Hf : (0 <= femax d)%Z) by (destruct d; cbn; lia). rewrite <- (Z2Nat.id (femax d)) at 1 by exact Hf. rewrite <- bpow_powerRZ || idtac. rewrite bpow_powerRZ. change (IZR radix2) with 2. rewrite <- pow_powerRZ, ln_pow by lra. rewrite INR_IZR_INZ, Z2Nat.id by exact Hf.
    assert (ln 2 <= 1). { left. apply Rlt_le_trans with (ln (exp 1)); [|rewrite ln_exp; lra]. apply ln_increasing; [lra|]. pose proof (exp_ineq1 1 ltac:(lra)). lra. }
    assert (0 <= IZR (femax d)) by (apply IZR_le; exact Hf). nra. }
  apply rto_between; [apply fmt_0|now apply fmt_int|split; assumption|now apply int_lt_top|rewrite Rabs_R0; apply top_pos].
Qed.
Lemma cr_sum_count : sum_count cr_libm.
Proof.
  intros d l Hl _. cbn [l_sum cr_libm].
  assert (G : forall a, ffin a = true -> 0 <= fval a <= bpow radix2 (fprec d + 2) -> ffin (fold_left (add_ (fprec d) (femax d)) l a) = true); [|apply G; [reflexivity|cbn; split; [lra|apply bpow_ge_0]]].
  induction Hl as [|x l (I1 & I2 & I3) Hl IH]; intros a Fa Ha; cbn [fold_left]; [exact Fa|].
  assert (T : bpow radix2 (fprec d + 2) < top d) by (apply bpow_lt; destruct d; reflexivity).
  assert (Fm : fmt d (bpow radix2 (fprec d + 2))) by (apply fmt_bpow; destruct d; cbn; lia).
  assert (R : 0 <= rnd d (fval a + fval x) <= bpow radix2 (fprec d + 2)).
  { split; [apply rnd_ge0; lra|]. rewrite <- (stag d (bpow radix2 (fprec d + 2)) 1 Fm); [apply rnd_le; lra|]. rewrite Rabs_R1, (Rabs_pos_eq (bpow radix2 _)) by apply bpow_ge_0. rewrite <- bpow_plus. replace (- fprec d - 2 + (fprec d + 2))%Z with 0%Z by lia. cbn. lra. }
  destruct (add_fin_val d a x Fa I2) as (A & B); [apply Rabs_def1; pose proof (top_pos d); lra|]. apply IH; [exact A|now rewrite B].
Qed.
Lemma cr_sum_neg : sum_neg cr_libm.
Proof.
  intros d l Hl. cbn [l_sum cr_libm].
  assert (G : forall a, fleq a (Zr false) -> fleq (fold_left (add_ (fprec d) (femax d)) l a) (Zr false)); [|apply G; apply le_fin; auto; cbn; lra].
  induction Hl as [|x l (_ & Hx) Hl IH]; intros a Ha; cbn [fold_left]; [exact Ha|]. apply IH.
  destruct (ffin a) eqn:Fa, (ffin x) eqn:Fx.
  - apply le_fin in Ha; auto. apply le_fin in Hx; auto. cbn [fval] in *. rewrite add_fin by assumption. assert (E : Zr false = rto d false 0) by (rewrite rto_id by (try apply fmt_0; rewrite Rabs_R0; apply top_pos); unfold fmk; now rewrite Req_bool_true by reflexivity). rewrite E. apply rto_le; [apply add_sgn|apply sgn_ok_false; lra|lra].
  - destruct x as [| |[|]|]; try discriminate. destruct a; try discriminate; reflexivity.
  - destruct a as [| |[|]|]; try discriminate. destruct x; try discriminate; reflexivity.
  - destruct a as [| |[|]|], x as [| |[|]|]; try discriminate; reflexivity.
Qed.
Lemma cr_sum_one : sum_one cr_libm.
Proof.
  intros d a x b Ix Fx Ha Hb. cbn [l_sum cr_libm].
  assert (G : forall l v, Forall (fun y => exists s, y = Zr s) l -> fmt d (fval v) -> Rabs (fval v) < top d -> ffin v = true -> ffin (fold_left (add_ (fprec d) (femax d)) l v) = true /\ fval (fold_left (add_ (fprec d) (femax d)) l v) = fval v).
  { clear. intros l v Hl. revert v. induction Hl as [|y l (s & ->) Hl IH]; intros v Fv Tv Ffv; cbn [fold_left]; [auto|].
    assert (E0 : rnd d (fval v + fval (Zr s)) = fval v) by (cbn [fval]; rewrite Rplus_0_r; now apply rnd_id). destruct (add_fin_val d v (Zr s) Ffv eq_refl) as (A & B); [now rewrite E0|]. rewrite E0 in B. destruct (IH (add_ (fprec d) (femax d) v (Zr s))) as (C & E); [now rewrite B|now rewrite B|exact A|]. split; [exact C|now rewrite E]. }
  rewrite fold_left_app. cbn [fold_left]. destruct (G a (Zr false) Ha) as (A1 & A2); [apply fmt_0|cbn; rewrite Rabs_R0; apply top_pos|reflexivity|]. set (z := fold_left _ a (Zr false)) in *. clearbody z. cbn [fval] in A2.
  destruct (fin_fmt d x Ix) as (X1 & X2). assert (E0 : rnd d (fval z + fval x) = fval x) by (rewrite A2, Rplus_0_l; now apply rnd_id). destruct (add_fin_val d z x A1 Fx) as (B1 & B2); [now rewrite E0|]. rewrite E0 in B2.
  destruct (G b (add_ (fprec d) (femax d) z x) Hb) as (C1 & C2); [now rewrite B2|now rewrite B2|exact B1|]. split; [exact C1|now rewrite C2].
Qed.
(*@ex C106_example *)
Lemma ce_ieee_example :
  (exists r, softmax_cross_entropy (O := FlOps cr_libm) (mkT F16 [2%nat] [Nz 8192; Nz (-8192)]) (mkT F32 [2%nat] [Zr false; Nz 1]) = Ok r /\ ffin (tget (O := FlOps cr_libm) r []) = true /\ le_ (Zr false) (tget (O := FlOps cr_libm) r []) = true) /\
  (exists r, softmax_cross_entropy (O := FlOps cr_libm) (mkT F32 [2%nat] [Nz 1; If true]) (mkT F32 [2%nat] [Nz 1; Zr false]) = Ok r /\ tget (O := FlOps cr_libm) r [] = Na) /\
  (exists r r', cosine_similarity (O := FlOps cr_libm) (mkT F16 [1%nat] [Nz 256]) (mkT F16 [1%nat] [Nz 256]) (Zr false) = Ok r /\ cosine_distance (O := FlOps cr_libm) (mkT F16 [1%nat] [Nz 256]) (mkT F16 [1%nat] [Nz 256]) (Zr false) = Ok r' /\
     eq_ (tget (O := FlOps cr_libm) r []) (Zr false) = true /\ eq_ (tget (O := FlOps cr_libm) r' []) (Nz 1) = true).
Proof.
  assert (F1 : forall d, in_format d (Nz 1)) by (intros d; rewrite <- (cast1 (L := cr_libm) d); apply cast_format).
  assert (FB : forall k, (0 <= k < 16)%Z -> in_format F16 (Nz (bpow radix2 k)) /\ in_format F16 (Nz (- bpow radix2 k))).
  { intros k Hk. assert (fmt F16 (bpow radix2 k)) by (apply fmt_bpow; cbn; lia). assert (Rabs (bpow radix2 k) < top F16) by (rewrite Rabs_pos_eq by apply bpow_ge_0; apply bpow_lt; cbn; lia). pose proof (bpow_gt_0 radix2 k).
    split; (split; [lra|]); (split; [try apply fmt_opp; assumption|]); rewrite ?Rabs_Ropp; assumption. }
  split; [|split].
  - set (x := mkT F16 [2%nat] [Nz 8192; Nz (-8192)]). set (l := mkT F32 [2%nat] [Zr false; Nz 1]).
    destruct (FB 13%Z ltac:(lia)) as (P1 & P2). change (bpow radix2 13) with 8192 in *. 
    destruct (ce_ieee (L := cr_libm) x l [] [] 2 cr_exp cr_exp_ends cr_log cr_sum cr_sum_count cr_sum_neg cr_sum_one) as (r & Er & _ & H); try reflexivity.
    + constructor; [exact P1|constructor; [exact P2|constructor]].
    + constructor; [exact Logic.I|constructor; [apply (F1 F32)|constructor]].
    + lia.
    + cbn. lra.
    + apply bcast_ok. reflexivity.
    + destruct (H [] Logic.I) as (_ & H2 & H3).
      * change (Forall (fun v => ffin v = true /\ Rabs (fval v) <= bpow radix2 13) [Nz 8192; Nz (-8192)]). change (bpow radix2 13) with 8192. repeat constructor; cbn [fval]; rewrite ?(Rabs_left (-8192)), ?Rabs_pos_eq by lra; lra.
      * rewrite fl0, fl1. change (Forall (fun v => le_ (Zr false) v = true /\ le_ v (Nz 1) = true) [Zr false; Nz 1]). repeat constructor; apply le_fin; auto; cbn; lra.
      * exists r. split; [exact Er|]. rewrite fl0 in H2. split; [|exact H2]. edestruct (H3 1%nat) as (Q & _); [reflexivity| |reflexivity|exact Q]. intros [|[|[|i]]] v E Ni; cbn in E; try discriminate; [|easy]. injection E as <-. rewrite fl0. unfold feqb, FlOps, eq_. rewrite cmp_fin by reflexivity. rewrite Rcompare_Eq by reflexivity. reflexivity.
  - apply (ce_masked (L := cr_libm) (mkT F32 [2%nat] [Nz 1; If true]) (mkT F32 [2%nat] [Nz 1; Zr false]) [] [] 2 [] 1); try reflexivity; [exact cr_sum_nan|lia|apply bcast_ok; reflexivity|]. exists false. reflexivity.
  - destruct (FB 8%Z ltac:(lia)) as (P1 & _). change (bpow radix2 8) with 256 in P1. set (t := mkT F16 [1%nat] [Nz 256]). assert (Tt : tfmt t) by (constructor; [exact P1|constructor]).
    assert (Ov : mul_ (fprec F16) (femax F16) (Nz 256) (Nz 256) = If false).
    { rewrite mul_fin by reflexivity. cbn [fval fneg_]. replace (256 * 256) with (bpow radix2 16) by (cbn; lra). rewrite !Rlt_bool_false by lra. cbn [xorb]. destruct (rto_cases F16 false (bpow radix2 16)) as [(H & _)|(_ & H)]; [|exact H]. exfalso. rewrite rnd_id in H by (apply fmt_bpow; cbn; lia). rewrite Rabs_pos_eq in H by apply bpow_ge_0. change (top F16) with (bpow radix2 16) in H. lra. }
    destruct (cos_overflow (L := cr_libm) t t (Zr false) [] [] 1 [] 0 (Nz 256) cr_sum cr_sum_one) as (r & r' & E1 & E2 & E3 & E4); try reflexivity; auto.
    + apply bcast_ok. reflexivity.
    + repeat constructor.
    + change (Forall (fun u => ffin u = true) [div_ (fprec F16) (femax F16) (Nz 256) (@norm_row (FlOps cr_libm) F16 (Zr false) [Nz 256])]). constructor; [|constructor].
      assert (N : @norm_row (FlOps cr_libm) F16 (Zr false) [Nz 256] = If false). { unfold norm_row. cbn [map fmul FlOps fsum l_sum cr_libm fold_left fsqrt]. rewrite Ov. reflexivity. } rewrite N. reflexivity.
    + exists r, r'. rewrite fl0 in E3. rewrite fl1 in E4. auto.
Qed.
