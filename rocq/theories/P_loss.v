(** Losses (C47 - C51). *)
From Verif Require Export Rows P_look P_sm3.
From Coq Require Import List Psatz Reals Qreals.
Import ListNotations.
Open Scope R_scope.
(*@header
From Coq Require Import List.
Import ListNotations.
Open Scope R_scope.
*)

(** ** Specification *)
(** [t] broadcasts with [u] to the shape [s]; [r] has that shape, a common dtype, and is well formed. *)
Definition joined `{O : Ops} (a b r : tensor) (s : list nat) : Prop := dt r = promote (dt a) (dt b) /\ shp r = s /\ twf r.
Definition huber_of (delta e : R) : R := if Rle_dec (Rabs e) delta then e * e / 2 else delta * (Rabs e - delta / 2).
Definition clamp (lo hi x : R) : R := Rmin hi (Rmax lo x).
Definition sigmoid (x : R) : R := 1 / (1 + exp (- x)).
Definition softmax (xs : list R) : list R := map (fun x => exp x / rsum (map exp xs)) xs.
(** - sum_i l_i ln p_i *)
Definition cross_entropy (ls ps : list R) : R := - rsum (map2 (fun l p => l * ln p) ls ps).
Definition entropy (ls : list R) : R := cross_entropy ls ls.
Definition distribution (ls : list R) : Prop := Forall (fun l => 0 <= l) ls /\ rsum ls = 1.

Section X.
  Context {P : Platform}.
  Notation xr := (XROps P).
  Lemma bin_x op (a b : gt XR) s : twf a -> twf b -> bshape (shp a) (shp b) = Some s ->
    exists r, @bin xr op a b = Ok r /\ @joined xr a b r s /\ forall o, valid s o -> @tget xr r o = op (promote (dt a) (dt b)) (@bget xr a o) (@bget xr b o).
  Proof.
    intros Wa Wb E. destruct (@bin_elem xr op a b s Wa Wb E) as (r & Er & D & S1 & W & H). exists r. split; [exact Er|]. split; [split; auto|]. intros o V. rewrite (H o V). now rewrite !conv_x.
  Qed.
  Lemma tget_fin (t : gt XR) (f : fdt -> XR -> XR) o : twf t -> valid (shp t) o -> @tget xr (emap f t) o = f (dt t) (@tget xr t o).
  Proof.
    intros W V. unfold tget. cbn [emap shp dat]. pose proof (ravel_lt _ _ V). unfold twf in W. rewrite nth_indep with (d' := f (dt t) (@fzero xr)) by (rewrite map_length; nx; lia). apply map_nth.
  Qed.
  Lemma bget_fin (t : gt XR) (f : fdt -> XR -> XR) o : twf t -> valid (shp t) (bidx (shp t) o) -> @bget xr (emap f t) o = f (dt t) (@bget xr t o).
  Proof. intros W V. unfold bget. cbn [emap shp]. now apply tget_fin. Qed.
  Lemma half : @flit xr (1 # 2) = Fin (1 / 2).
  Proof. reflexivity. Qed.
  Lemma l2_of (e : gt XR) : twf e -> let r := @sl xr (@fmul xr) (@flit xr (1 # 2)) (@tsquare xr e) in twf r /\ aval r = aval e /\ forall o a, valid (shp e) o -> @tget xr e o = Fin a -> @tget xr r o = Fin (a * a / 2).
  Proof.
    intros W r. subst r. unfold sl, tsquare, un. split; [now apply emap_wf, emap_wf|]. split; [reflexivity|]. intros o a V E. rewrite tget_fin by (auto; now apply emap_wf). rewrite tget_fin by auto. nx. rewrite E, half. cbn. f_equal. lra.
  Qed.
  Lemma huber_leaf (e : gt XR) (delta : R) : twf e -> exists r,
    (let abs_errors := @un xr (fun _ => @fabs xr) e in let quadratic := @sr xr (fun _ => @fmin xr) abs_errors (Fin delta) in
     let* linear := @bin xr (@fsub xr) abs_errors quadratic in
     @bin xr (@fadd xr) (@sl xr (@fmul xr) (@flit xr (1 # 2)) (@tsquare xr quadratic)) (@sl xr (@fmul xr) (Fin delta) linear)) = Ok r /\ twf r /\ aval r = aval e /\
    forall o a, valid (shp e) o -> @tget xr e o = Fin a -> @tget xr r o = Fin (Rmin (Rabs a) delta * Rmin (Rabs a) delta / 2 + delta * (Rabs a - Rmin (Rabs a) delta)).
  Proof.
    intros W. cbv zeta. set (A := @un xr (fun _ => @fabs xr) e). set (Q := @sr xr (fun _ => @fmin xr) A (Fin delta)).
    assert (WA : twf A) by now apply emap_wf. assert (WQ : twf Q) by now apply emap_wf.
    destruct (bin_x (@fsub xr) A Q (shp e) WA WQ (bshape_same _)) as (L & EL & (DL & SL & WL) & HL). nx. rewrite EL. cbn [rbind].
    destruct (bin_x (@fadd xr) (@sl xr (@fmul xr) (@flit xr (1 # 2)) (@tsquare xr Q)) (@sl xr (@fmul xr) (Fin delta) L) (shp e)) as (r & Er & (Dr & Sr & Wr) & Hr).
    { unfold sl, tsquare, un. now apply emap_wf, emap_wf. } { unfold sl. now apply emap_wf. } { change (bshape (shp e) (shp L) = Some (shp e)). rewrite SL. apply bshape_same. }
    exists r. split; [exact Er|]. split; [exact Wr|]. split; [unfold aval; f_equal; [etransitivity; [exact Dr|]; change (promote (dt e) (dt L) = dt e); etransitivity; [apply f_equal; exact DL|]; change (promote (dt e) (promote (dt e) (dt e)) = dt e); now rewrite !promote_same|exact Sr]|].
    intros o a V Ea. assert (VL : valid (shp L) o) by now rewrite SL. rewrite (Hr o V). unfold sl. rewrite !bget_fin; auto; try (rewrite bidx_same; auto). 2: { unfold tsquare, un. now apply emap_wf. }
    unfold tsquare, un. rewrite bget_fin; auto; [|rewrite bidx_same; auto].
    assert (EA : @bget xr A o = Fin (Rabs a)). { unfold A, un. rewrite bget_fin; auto; [|rewrite bidx_same; auto]. unfold bget. rewrite bidx_same by auto. nx. now rewrite Ea. }
    assert (EQ : @bget xr Q o = Fin (Rmin (Rabs a) delta)). { unfold Q, sr. rewrite bget_fin; auto; [|rewrite bidx_same; auto]. nx. now rewrite EA. }
    assert (EL' : @bget xr L o = Fin (Rabs a - Rmin (Rabs a) delta)). { unfold bget. rewrite bidx_same by auto. rewrite (HL o V). nx. now rewrite EA, EQ. }
    nx. rewrite EQ, EL', half. cbn. f_equal. lra.
  Qed.
End X.

(** ** C47 *)
(*@ C47_l2_loss : for predictions and targets of broadcastable shapes, l2_loss has the broadcast shape and the promoted dtype, and every element is half the squared error. *)
Lemma l2_value : forall `{P : Platform} (p t : tensor) (s : list nat), twf p -> twf t -> bshape (shp p) (shp t) = Some s ->
  exists r, l2_loss p (Some t) = Ok r /\ joined p t r s /\ forall o a b, valid s o -> bget p o = Fin a -> bget t o = Fin b -> tget r o = Fin ((a - b) ^ 2 / 2).
Proof.
  intros P p t s Wp Wt Es. unfold l2_loss, errors. destruct (bin_x (@fsub (XROps P)) p t s Wp Wt Es) as (e & Ee & (De & Se & We) & He). nx. rewrite Ee. cbn [rbind]. eexists. split; [reflexivity|].
  destruct (l2_of e We) as (W & Av & H). split; [split; [exact De|split; [exact Se|exact W]]|]. intros o a b V Ea Eb.
  erewrite H; [|now rewrite Se|nx; rewrite (He o V), Ea, Eb; reflexivity]. f_equal. lra.
Qed.
(*@ C47_targets_default : without targets the losses are those with targets zero: half the square and the Huber function of the predictions, of the same shape and dtype. *)
Lemma no_targets : forall `{P : Platform} (p : tensor) (delta : R), twf p -> 0 <= delta ->
  exists r h, l2_loss p None = Ok r /\ huber_loss p None (Fin delta) = Ok h /\ aval r = aval p /\ aval h = aval p /\ twf r /\ twf h /\
  forall o a, valid (shp p) o -> tget p o = Fin a -> tget r o = Fin (a ^ 2 / 2) /\ tget h o = Fin (huber_of delta a).
Proof.
  intros P p delta W Hd. unfold l2_loss, huber_loss, errors. cbn [rbind]. destruct (l2_of p W) as (W1 & A1 & H1). destruct (huber_leaf p delta W) as (h & Eh & W2 & A2 & H2). eexists. exists h. split; [reflexivity|]. split; [exact Eh|].
  split; [exact A1|]. split; [exact A2|]. split; [exact W1|]. split; [exact W2|]. intros o a V Ea. rewrite (H1 o a V Ea), (H2 o a V Ea). split; f_equal; [lra|]. unfold huber_of. destruct (Rle_dec (Rabs a) delta) as [H|H].
  - rewrite Rmin_left by exact H. assert (Rabs a * Rabs a = a * a) by (rewrite <- Rabs_mult; apply Rabs_right; nra). nra.
  - rewrite Rmin_right by lra. lra.
Qed.
(*@ C47_huber_loss : for delta >= 0 every element of huber_loss is err^2/2 when |err| <= delta and delta*(|err| - delta/2) beyond. *)
Lemma huber_value : forall `{P : Platform} (p t : tensor) (delta : R) (s : list nat), twf p -> twf t -> bshape (shp p) (shp t) = Some s -> 0 <= delta ->
  exists r, huber_loss p (Some t) (Fin delta) = Ok r /\ joined p t r s /\ forall o a b, valid s o -> bget p o = Fin a -> bget t o = Fin b ->
    tget r o = Fin (if Rle_dec (Rabs (a - b)) delta then (a - b) * (a - b) / 2 else delta * (Rabs (a - b) - delta / 2)).
Proof.
  intros P p t delta s Wp Wt Es Hd. unfold huber_loss, errors. destruct (bin_x (@fsub (XROps P)) p t s Wp Wt Es) as (e & Ee & (De & Se & We) & He). nx. rewrite Ee. cbn [rbind].
  destruct (no_targets e delta We Hd) as (r0 & h & _ & Eh & _ & A2 & _ & W2 & H2). exists h. unfold huber_loss, errors in Eh. cbn [rbind] in Eh. split; [exact Eh|]. unfold aval in A2. injection A2 as A2 A3. split; [split; [etransitivity; [exact A2|exact De]|split; [etransitivity; [exact A3|exact Se]|exact W2]]|].
  intros o a b V Ea Eb. destruct (H2 o (a - b)) as (_ & E); [nx; rewrite Se; exact V|nx; rewrite (He o V), Ea, Eb; reflexivity|exact E].
Qed.
(*@ C47_huber_shape : the Huber function is non-negative, even, at most half the square, continuous, and differentiable everywhere with derivative the l2 derivative clipped to [-delta, delta]. *)
Lemma huber_shape : forall delta, 0 <= delta -> (forall e, 0 <= huber_of delta e /\ huber_of delta (- e) = huber_of delta e /\ huber_of delta e <= e ^ 2 / 2 /\ continuity_pt (huber_of delta) e /\
  derivable_pt_lim (huber_of delta) e (clamp (- delta) delta e)) .
Proof.
  intros delta Hd e.
  assert (Hder : derivable_pt_lim (huber_of delta) e (clamp (- delta) delta e)).
  { intros eps Heps. exists (mkposreal eps Heps). intros h Hh Hle. cbn in Hle.
    assert (Hb : Rabs (huber_of delta (e + h) - huber_of delta e - clamp (- delta) delta e * h) <= h * h / 2).
    { apply Rabs_le. unfold huber_of.
      assert (HC : (Rabs e <= delta /\ clamp (- delta) delta e = e) \/ (delta < e /\ clamp (- delta) delta e = delta) \/ (e < - delta /\ clamp (- delta) delta e = - delta)).
      { unfold clamp. destruct (Rlt_dec e (- delta)) as [H|H]; [right; right; rewrite Rmax_left, Rmin_right by lra; lra|]. rewrite Rmax_right by lra. destruct (Rlt_dec delta e) as [H'|H']; [right; left; rewrite Rmin_left by lra; lra|]. left. rewrite Rmin_right by lra. split; [apply Rabs_le; lra|reflexivity]. }
      assert (HE : forall x, (Rabs x <= delta /\ - delta <= x <= delta) \/ (delta < x /\ Rabs x = x) \/ (x < - delta /\ Rabs x = - x)).
      { intros x. destruct (Rle_dec (Rabs x) delta) as [H|H]; [left; split; [exact H|]; unfold Rabs in H; destruct (Rcase_abs x); lra|]. right. unfold Rabs in *. destruct (Rcase_abs x); [right|left]; lra. }
      destruct HC as [(H1 & ->)|[(H1 & ->)|(H1 & ->)]], (HE (e + h)) as [(H2 & H2')|[(H2 & H2')|(H2 & H2')]], (HE e) as [(H3 & H3')|[(H3 & H3')|(H3 & H3')]]; try lra;
        destruct (Rle_dec (Rabs (e + h)) delta); try lra; destruct (Rle_dec (Rabs e) delta); try lra; rewrite ?H2', ?H3'; try (split; nra).
      all: idtac. all: split; pose proof (pow2_ge_0 (h - (delta - e))); pose proof (pow2_ge_0 (h + (delta + e))); nra. }
    replace ((huber_of delta (e + h) - huber_of delta e) / h - clamp (- delta) delta e) with ((huber_of delta (e + h) - huber_of delta e - clamp (- delta) delta e * h) / h) by (field; exact Hh).
    unfold Rdiv. rewrite Rabs_mult, Rabs_inv. assert (Hp : 0 < Rabs h) by now apply Rabs_pos_lt. assert (Habs : h * h = Rabs h * Rabs h) by (rewrite <- Rabs_mult; symmetry; apply Rabs_right; nra).
    apply Rle_lt_trans with (h * h / 2 * / Rabs h); [apply Rmult_le_compat_r; [apply Rlt_le, Rinv_0_lt_compat; exact Hp|exact Hb]|]. rewrite Habs. replace (Rabs h * Rabs h / 2 * / Rabs h) with (Rabs h / 2) by (field; lra). lra. }
  split; [|split; [|split; [|split; [|exact Hder]]]].
  - unfold huber_of. destruct (Rle_dec (Rabs e) delta) as [H|H]; [nra|]. apply Rmult_le_pos; lra.
  - unfold huber_of. rewrite Rabs_Ropp. destruct (Rle_dec (Rabs e) delta); lra.
  - unfold huber_of. destruct (Rle_dec (Rabs e) delta) as [H|H]; [lra|]. assert (Rabs e * Rabs e = e * e) by (rewrite <- Rabs_mult; apply Rabs_right; nra). nra.
  - apply derivable_continuous_pt. exists (clamp (- delta) delta e). exact Hder.
Qed.

(** ** C48 *)
Section X2.
  Context {P : Platform}.
  Notation xr := (XROps P).
  Lemma smooth_step (labels : gt XR) (alpha : R) B n : twf labels -> shp labels = B ++ [n] -> (0 < n)%nat -> exists r, @smooth_labels xr labels (Fin alpha) = Ok r /\ aval r = aval labels /\ twf r /\
    forall o, valid B o -> @row xr r o = map (fun l => xadd (xmul (Fin (1 - alpha)) l) (Fin (alpha / INR n))) (@row xr labels o).
  Proof.
    intros W E Hn. unfold smooth_labels, last_dim. nx. rewrite E. destruct (B ++ [n]) as [|x0 l0] eqn:EB; [destruct B; discriminate|]. rewrite <- EB, last_snoc. cbn [rbind]. unfold pydivZ. destruct (Z.eqb_spec (Z.of_nat n) 0); [lia|]. cbn [rbind].
    assert (Hc : @fdiv xr F64 (Fin alpha) (@fofZ xr (Z.of_nat n)) = Fin (alpha / INR n)).
    { unfold fofZ. cbn [flit fdiv XROps]. rewrite Q2R_Z, <- INR_IZR_INZ. apply xdiv_fin. apply not_0_INR. lia. }
    nx. rewrite Hc. eexists. split; [reflexivity|]. split; [reflexivity|]. split; [unfold sr, sl; now apply emap_wf, emap_wf|]. intros o V. unfold sr, sl.
    assert (E' : shp labels = B ++ [n]) by congruence. etransitivity; [apply (@emap_row xr _ (@emap XR XR _ labels) B n); [now apply emap_wf|exact E'|exact V]|]. etransitivity; [apply f_equal; apply (@emap_row xr _ labels B n); [exact W|exact E'|exact V]|]. rewrite map_map. apply map_ext. intros l. cbn [fadd fmul fcast fsub XROps emap dt]. unfold fone. cbn [flit XROps]. rewrite Q2R_1, xsub_fin. reflexivity.
  Qed.
End X2.
(*@ C48_smooth_labels : for labels whose last axis has n > 0 categories, smooth_labels keeps shape and dtype and maps every row l to (1-alpha)*l + alpha/n. *)
Lemma smooth_value : forall `{P : Platform} (labels : tensor) (alpha : R) (B : list nat) (n : nat), twf labels -> shp labels = B ++ [n] -> (0 < n)%nat ->
  exists r, smooth_labels labels (Fin alpha) = Ok r /\ aval r = aval labels /\ twf r /\ forall o ls, valid B o -> row labels o = map Fin ls -> row r o = map Fin (map (fun l => (1 - alpha) * l + alpha / INR n) ls).
Proof.
  intros P labels alpha B n W E Hn. destruct (smooth_step labels alpha B n W E Hn) as (r & Er & A & Wr & H). exists r. split; [exact Er|]. split; [exact A|]. split; [exact Wr|]. intros o ls V El. rewrite (H o V). nx. rewrite El, !map_map. apply map_ext. intros l. reflexivity.
Qed.
(*@ C48_distributions : with 0 <= alpha <= 1, a row that is a probability distribution stays one. *)
Lemma smooth_distribution : forall `{P : Platform} (labels : tensor) (alpha : R) (B : list nat) (n : nat) (o : list nat) (ls : list R), twf labels -> shp labels = B ++ [n] -> (0 < n)%nat -> 0 <= alpha <= 1 -> valid B o -> row labels o = map Fin ls -> distribution ls ->
  exists r ls', smooth_labels labels (Fin alpha) = Ok r /\ row r o = map Fin ls' /\ distribution ls'.
Proof.
  intros P labels alpha B n o ls W E Hn Ha V El (Hp & Hs). destruct (smooth_value labels alpha B n W E Hn) as (r & Er & _ & _ & H). exists r. eexists. split; [exact Er|]. split; [exact (H o ls V El)|].
  assert (Hl : length ls = n). { apply (f_equal (@length _)) in El. rewrite row_length, map_length in El. nx. rewrite E, last_snoc in El. congruence. }
  assert (HN : 0 < INR n) by (apply lt_0_INR; exact Hn). assert (Hq : 0 <= alpha / INR n) by (apply Rmult_le_pos; [lra|apply Rlt_le, Rinv_0_lt_compat, HN]).
  split.
  - rewrite Forall_forall in *. intros x Hx. apply in_map_iff in Hx as (l & <- & Hl'). specialize (Hp l Hl'). nra.
  - rewrite (rsum_map_add (fun l => (1 - alpha) * l) (fun _ => alpha / INR n)), (rsum_map_scal (1 - alpha) (fun l => l)), rsum_map_const, map_id, Hs, Hl. field. lra.
Qed.
(*@ C48_one_hot : for a one-hot row the greedy category gets (1-alpha) + alpha/n and every other alpha/n. *)
Lemma smooth_one_hot : forall `{P : Platform} (labels : tensor) (alpha : R) (B : list nat) (n k : nat) (o : list nat), twf labels -> shp labels = B ++ [n] -> (k < n)%nat -> valid B o ->
  row labels o = map (fun j => Fin (if (j =? k)%nat then 1 else 0)) (seq 0 n) ->
  exists r, smooth_labels labels (Fin alpha) = Ok r /\ forall j, (j < n)%nat -> tget r (o ++ [j]) = Fin (if (j =? k)%nat then (1 - alpha) + alpha / INR n else alpha / INR n).
Proof.
  intros P labels alpha B n k o W E Hk V El. destruct (smooth_value labels alpha B n W E ltac:(lia)) as (r & Er & A & _ & H). exists r. split; [exact Er|]. intros j Hj.
  specialize (H o (map (fun j => if (j =? k)%nat then 1 else 0) (seq 0 n)) V). rewrite map_map in H. specialize (H El). rewrite !map_map in H.
  assert (Sr : shp r = B ++ [n]) by (unfold aval in A; injection A as _ A; nx; congruence). pose proof (row_nth r B n o _ j Sr H Hj) as Hn. rewrite nth_error_map, (nth_error_nth' (seq 0 n) 0%nat) in Hn by (now rewrite seq_length). rewrite seq_nth in Hn by exact Hj. cbn [option_map Nat.add] in Hn. injection Hn as Hn. rewrite <- Hn. destruct (j =? k)%nat; f_equal; lra.
Qed.
(*@ C48_errors : labels without axes raise IndexError and an empty last axis raises ZeroDivisionError. *)
Lemma smooth_errors : forall `{O : Ops} (labels : tensor) (alpha : F) (B : list nat), (shp labels = [] -> smooth_labels labels alpha = Err EIndex) /\ (shp labels = B ++ [0%nat] -> smooth_labels labels alpha = Err EZeroDiv).
Proof.
  intros O labels alpha B. unfold smooth_labels, last_dim. split; intros ->; [reflexivity|]. destruct (B ++ [0%nat]) as [|x0 l0] eqn:EB; [destruct B; discriminate|]. rewrite <- EB, last_snoc. reflexivity.
Qed.

(** ** C49 *)
Lemma sigmoid_pos x : 0 < sigmoid x < 1.
Proof. unfold sigmoid. pose proof (exp_pos (- x)). split; [apply Rdiv_lt_0_compat; lra|]. apply Rmult_lt_reg_r with (1 + exp (- x)); [lra|]. unfold Rdiv. rewrite Rmult_assoc, Rinv_l by lra. lra. Qed.
Lemma sigmoid_neg x : sigmoid (- x) = 1 - sigmoid x.
Proof. unfold sigmoid. rewrite Ropp_involutive, exp_Ropp. pose proof (exp_pos x). field. lra. Qed.
Section X3.
  Context {P : Platform}.
  Notation xr := (XROps P).
  Lemma log_sigmoid_val d x : @log_sigmoid xr d (Fin x) = Fin (ln (sigmoid x)).
  Proof.
    unfold log_sigmoid, softplus, logaddexp. unfold fzero. cbn [fcast flit fneg fmax fsub fisnan fadd flog1p fexp fabs XROps xneg]. rewrite Q2R_0, xsub_fin. cbn [xmax xisnan xabs xneg xexp]. rewrite xlog1p_fin by (pose proof (exp_pos (- Rabs (- x - 0))); lra). cbn [xadd xneg]. f_equal.
    assert (E : Rmax (- x) 0 + ln (1 + exp (- Rabs (- x - 0))) = ln (1 + exp (- x))).
    { rewrite Rminus_0_r, Rabs_Ropp. destruct (Rle_dec 0 x) as [H|H].
      - rewrite Rmax_right by lra. rewrite Rabs_right by lra. lra.
      - rewrite Rmax_left by lra. rewrite Rabs_left by lra. rewrite <- (ln_exp (- x)) at 1. pose proof (exp_pos (- x)). pose proof (exp_pos (- - x)). rewrite <- ln_mult by lra. f_equal. rewrite Rmult_plus_distr_l, <- exp_plus. replace (- x + - - x) with 0 by lra. rewrite exp_0. lra. }
    rewrite E. unfold sigmoid, Rdiv. rewrite Rmult_1_l, ln_Rinv; [reflexivity|]. pose proof (exp_pos (- x)). lra.
  Qed.
End X3.
Definition bce (x l : R) : R := - l * ln (sigmoid x) - (1 - l) * ln (1 - sigmoid x).
(*@ C49_sigmoid_bce : for logits broadcastable to the labels, sigmoid_binary_cross_entropy has the labels' shape and every element is -l*ln(sigmoid x) - (1-l)*ln(1 - sigmoid x). *)
Lemma bce_value : forall `{P : Platform} (x l : tensor), twf x -> twf l -> broadcasts_to (shp x) (shp l) ->
  exists r, sigmoid_binary_cross_entropy x l = Ok r /\ joined l x r (shp l) /\ forall o a b, valid (shp l) o -> bget x o = Fin a -> tget l o = Fin b -> tget r o = Fin (- b * ln (sigmoid a) - (1 - b) * ln (1 - sigmoid a)).
Proof.
  intros P x l Wx Wl Ha. apply broadcasts_iff in Ha. unfold sigmoid_binary_cross_entropy. rewrite Ha. cbn [rbind]. apply assert_bshape in Ha. pose proof Ha as Hb. rewrite bshape_comm in Hb.
  destruct (bin_x (@fmul (XROps P)) (un (fun _ => fneg) l) (un log_sigmoid x) (shp l)) as (a & Ea & (Da & Sa & Wa) & Va); [now apply emap_wf|now apply emap_wf|exact Hb|]. nx. rewrite Ea. cbn [rbind].
  destruct (bin_x (@fmul (XROps P)) (@sl (XROps P) (@fsub (XROps P)) (@fone (XROps P)) l) (@un (XROps P) (@log_sigmoid (XROps P)) (@un (XROps P) (fun _ => @fneg (XROps P)) x)) (shp l)) as (b & Eb & (Db & Sb & Wb) & Vb); [now apply emap_wf|now apply emap_wf, emap_wf|exact Hb|]. nx. rewrite Eb. cbn [rbind].
  destruct (bin_x (@fsub (XROps P)) a b (shp l)) as (r & Er & (Dr & Sr & Wr) & Vr); [exact Wa|exact Wb|rewrite Sa, Sb; apply bshape_same|]. exists r. split; [exact Er|]. split; [split; [|auto]|].
  - etransitivity; [exact Dr|]. etransitivity; [apply f_equal2; [exact Da|exact Db]|]. apply promote_same.
  - intros o u v V Eu Ev. rewrite (Vr o V). unfold bget. nx. rewrite Sa, Sb, bidx_same by exact V. rewrite (Va o V), (Vb o V).
    destruct (bshape_valid _ _ _ o Ha V) as (Vx & _). assert (Vl : valid (shp l) (bidx (shp l) o)) by now rewrite bidx_same. unfold un, sl. rewrite !bget_fin; auto; [|now apply emap_wf].
    assert (Ev' : @bget (XROps P) l o = Fin v) by (unfold bget; rewrite bidx_same; auto). nx. rewrite Eu, Ev'. cbn [fneg XROps xneg]. rewrite !log_sigmoid_val, sigmoid_neg. unfold fone. cbn [fneg fsub fmul fcast flit XROps xneg]. rewrite Q2R_1, !xsub_fin, !xmul_fin, xsub_fin. reflexivity.
Qed.
(*@ C49_nonnegative_symmetric : that value is >= 0 when 0 <= l <= 1, is unchanged by (x, l) -> (-x, 1-l), and is zero only in the limit: it is positive for every finite logit. *)
Lemma bce_shape : forall x l, 0 <= l <= 1 -> 0 < bce x l /\ bce (- x) (1 - l) = bce x l.
Proof.
  intros x l Hl. unfold bce. pose proof (sigmoid_pos x) as Hs. assert (H1 : ln (sigmoid x) < 0) by (rewrite <- ln_1; apply ln_increasing; lra). assert (H2 : ln (1 - sigmoid x) < 0) by (rewrite <- ln_1; apply ln_increasing; lra). split; [nra|].
  rewrite sigmoid_neg. replace (1 - (1 - sigmoid x)) with (sigmoid x) by lra. lra.
Qed.
(*@ C49_not_broadcastable : logits that do not broadcast to the labels' shape raise AssertionError. *)
Lemma bce_assert : forall `{O : Ops} (x l : tensor), ~ broadcasts_to (shp x) (shp l) -> sigmoid_binary_cross_entropy x l = Err EAssert /\ softmax_cross_entropy x l = Err EAssert /\ forall eps, cosine_similarity x l eps = Err EAssert /\ cosine_distance x l eps = Err EAssert.
Proof.
  intros O x l H. rewrite broadcasts_iff in H. assert (E : assert_broadcastable (shp x) (shp l) = Err EAssert) by (unfold assert_broadcastable in *; destruct (_ && _)%bool; [easy|reflexivity]).
  unfold sigmoid_binary_cross_entropy, softmax_cross_entropy, cosine_distance, cosine_similarity. rewrite E. cbn. auto.
Qed.

(** ** C50 *)
Lemma ln_div a b : 0 < a -> 0 < b -> ln (a / b) = ln a - ln b.
Proof. intros Ha Hb. unfold Rdiv. rewrite ln_mult; [|exact Ha|now apply Rinv_0_lt_compat]. rewrite ln_Rinv by exact Hb. lra. Qed.
Lemma rsum_exp_pos xs : xs <> [] -> 0 < rsum (map exp xs).
Proof.
  destruct xs as [|x xs]; [easy|]. intros _. cbn [map]. rewrite rsum_cons. pose proof (exp_pos x). assert (0 <= rsum (map exp xs)) by (apply rsum_nonneg, Forall_map, Forall_forall; intros y _; apply Rlt_le, exp_pos). lra.
Qed.
Lemma softmax_shift c xs : softmax (map (fun x => x + c) xs) = softmax xs.
Proof.
  unfold softmax. rewrite !map_map. assert (E : rsum (map (fun x => exp (x + c)) xs) = exp c * rsum (map exp xs)) by (rewrite <- (rsum_map_scal (exp c) exp); f_equal; apply map_ext; intros x; rewrite exp_plus; lra).
  rewrite E. destruct xs as [|y ys] eqn:Ex; [reflexivity|]. rewrite <- Ex. assert (Hp : 0 < rsum (map exp xs)) by (apply rsum_exp_pos; rewrite Ex; discriminate). apply map_ext. intros x. rewrite exp_plus. pose proof (exp_pos c). field. lra.
Qed.
Lemma softmax_distribution xs : xs <> [] -> Forall (fun p => 0 < p) (softmax xs) /\ rsum (softmax xs) = 1.
Proof.
  intros H. pose proof (rsum_exp_pos xs H) as Hp. split.
  - apply Forall_map, Forall_forall. intros x _. apply Rdiv_lt_0_compat; [apply exp_pos|exact Hp].
  - unfold softmax, Rdiv. rewrite (map_ext _ (fun x => / rsum (map exp xs) * exp x)) by (intros; lra). rewrite rsum_map_scal. field. lra.
Qed.
Section X4.
  Context {P : Platform}.
  Notation xr := (XROps P).
  Lemma fsum_fin d l : @fsum xr d (map Fin l) = Fin (rsum l).
  Proof. exact (xsum_fin l). Qed.
  Lemma log_softmax_val (x : gt XR) B n : twf x -> shp x = B ++ [n] -> (0 < n)%nat -> exists r, @log_softmax xr x = Ok r /\ dt r = dt x /\ shp r = B ++ [n] /\ twf r /\
    forall o xs, valid B o -> @row xr x o = map Fin xs -> @row xr r o = map Fin (map ln (softmax xs)).
  Proof.
    intros W E Hn. unfold log_softmax. assert (El : last_dim (shp x) = Ok n) by (unfold last_dim; rewrite E; destruct (B ++ [n]) as [|x0 l0] eqn:EB; [destruct B; discriminate|]; rewrite <- EB; now rewrite last_snoc). nx. rewrite El. destruct n as [|n']; [lia|]. set (n := S n') in *.
    destruct (@last_keep_val xr (fun _ => @max_list xr) x B n E) as (m & Em & Dm & Sm & Wm & Hm). nx. rewrite Em. cbn [rbind].
    destruct (@keep_rows xr (@fsub xr) x (@un xr (fun _ => @fstop xr) m) B n) as (sh & Esh & Dsh & Ssh & Wsh & Hsh); [exact W|now apply emap_wf|exact Dm|exact E|exact Sm|]. nx. rewrite Esh. cbn [rbind].
    destruct (@last_keep_val xr (@fsum xr) (@un xr (@fexp xr) sh) B n) as (s & Es & Ds & Ss & Ws & Hs); [exact Ssh|]. nx. rewrite Es. cbn [rbind].
    destruct (@keep_rows xr (@fsub xr) sh (@un xr (@flog xr) s) B n) as (r & Er & Dr & Sr & Wr & Hr); [exact Wsh|now apply emap_wf|etransitivity; [exact Ds|reflexivity]|exact Ssh|exact Ss|].
    exists r. split; [exact Er|]. split; [etransitivity; [exact Dr|exact Dsh]|]. split; [exact Sr|]. split; [exact Wr|]. intros o xs V Ex.
    assert (Hlen : length xs = n) by (pose proof (eq_trans (eq_sym (@row_length xr x o)) (f_equal (@length XR) Ex)) as HH; rewrite map_length in HH; nx; rewrite E, last_snoc in HH; congruence).
    assert (V0 : forall k, valid (B ++ [1%nat]) (o ++ [0%nat]) /\ valid (B ++ [S k]) (o ++ [0%nat])) by (intros k; split; apply valid_snoc; exists o, 0%nat; repeat split; auto; lia).
    set (M := rmaxl xs). assert (EM : @tget xr m (o ++ [0%nat]) = Fin M) by (etransitivity; [exact (Hm o V)|]; apply max_list_val; exact Ex).
    assert (Rsh : @row xr sh o = map Fin (map (fun a => a - M) xs)).
    { etransitivity; [exact (Hsh o V)|]. unfold un. nx. rewrite Ex. rewrite (@tget_emap_val xr) by (auto; nx; rewrite Sm; apply (V0 0%nat)). nx. rewrite EM, !map_map. reflexivity. }
    set (S0 := rsum (map exp (map (fun a => a - M) xs))). assert (HS : 0 < S0) by (apply rsum_exp_pos; destruct xs; [cbn in Hlen; lia|discriminate]).
    assert (ES : @tget xr s (o ++ [0%nat]) = Fin S0).
    { etransitivity; [exact (Hs o V)|]. etransitivity; [apply f_equal; etransitivity; [exact (@emap_row xr (@fexp xr) sh B n o Wsh Ssh V)|]; apply f_equal; exact Rsh|]. etransitivity; [|exact (fsum_fin (dt sh) (map exp (map (fun a => a - M) xs)))]. change (dt (@un xr (@fexp xr) sh)) with (dt sh). apply f_equal. rewrite !map_map. reflexivity. }
    etransitivity; [exact (Hr o V)|]. unfold un. rewrite (@tget_emap_val xr) by (auto; nx; rewrite Ss; apply (V0 0%nat)). nx. rewrite Rsh, ES. cbn [flog fsub XROps]. rewrite xlog_fin by exact HS. rewrite <- (softmax_shift (- M) xs). unfold softmax. rewrite !map_map.
    apply map_ext. intros a. rewrite xsub_fin. f_equal. rewrite ln_div; [|apply exp_pos|].
    - rewrite ln_exp. unfold S0. rewrite map_map. reflexivity.
    - unfold S0 in HS. rewrite map_map in HS. exact HS.
  Qed.
  Lemma map2_fin (l m : list R) : map2 xmul (map Fin l) (map Fin m) = map Fin (map2 Rmult l m).
  Proof. revert m; induction l as [|a l IH]; intros [|b m]; cbn; try reflexivity. now rewrite IH. Qed.
  Lemma map2_map_r {A B C D} (f : A -> B -> C) (g : D -> B) l m : map2 f l (map g m) = map2 (fun a d => f a (g d)) l m.
  Proof. revert m; induction l as [|a l IH]; intros [|b m]; cbn; try reflexivity. now rewrite IH. Qed.
End X4.
(*@ C50_softmax_cross_entropy : for logits broadcastable to labels, both with n > 0 classes on the last axis, softmax_cross_entropy drops that axis and every element is -sum_i l_i ln softmax(x)_i of its rows. *)
Lemma ce_value : forall `{P : Platform} (x l : tensor) (B B' : list nat) (n : nat), twf x -> twf l -> shp l = B ++ [n] -> shp x = B' ++ [n] -> (0 < n)%nat -> broadcasts_to (shp x) (shp l) ->
  exists r, softmax_cross_entropy x l = Ok r /\ joined l x r B /\ forall o xs ls, valid B o -> row x (bidx B' o) = map Fin xs -> row l o = map Fin ls -> tget r o = Fin (cross_entropy ls (softmax xs)).
Proof.
  intros P x l B B' n Wx Wl El Ex Hn Ha. apply broadcasts_iff in Ha. unfold softmax_cross_entropy. rewrite Ha. cbn [rbind]. destruct (log_softmax_val x B' n Wx Ex Hn) as (s & Es & Ds & Ss & Ws & Hs). nx. rewrite Es. cbn [rbind].
  rewrite El, Ex in Ha. apply assert_snoc in Ha. pose proof Ha as Hb. rewrite bshape_comm in Hb.
  destruct (@bin_rows (XROps P) (@fmul (XROps P)) l s B B' B n Wl Ws El Ss Hb) as (w & Ew & Dw & Sw & Ww & Hw). nx. rewrite Ew. cbn [rbind]. destruct (@last_drop_val (XROps P) (@fsum (XROps P)) w B n Sw) as (k & Ek & Dk & Sk & Wk & Hk). nx. rewrite Ek. cbn [rbind].
  eexists. split; [reflexivity|]. split; [split; [|split; [exact Sk|now apply emap_wf]]|].
  - change (dt k = promote (dt l) (dt x)). rewrite Dk, Dw, Ds. reflexivity.
  - intros o xs ls V Rx Rl. unfold un. rewrite (@tget_emap_val (XROps P)) by (auto; nx; rewrite Sk; exact V). nx. rewrite (Hk o V), (Hw o V). rewrite bidx_same by exact V. destruct (bshape_valid _ _ _ o Ha V) as (V' & _). nx. rewrite Rl, (Hs _ xs V' Rx).
    rewrite Dw. nx. assert (E : forall a b, map2 (fun u v => @fmul (XROps P) (promote (dt l) (dt s)) (@conv (XROps P) (dt l) (promote (dt l) (dt s)) u) (@conv (XROps P) (dt s) (promote (dt l) (dt s)) v)) a b = map2 xmul a b).
    { induction a as [|u a IH]; intros [|v b]; cbn [map2]; try reflexivity. rewrite IH, !conv_x. reflexivity. }
    etransitivity; [apply f_equal; apply f_equal; apply E|]. rewrite map2_fin, fsum_fin, map2_map_r. reflexivity.
Qed.
Lemma gibbs ls ps : length ls = length ps -> Forall (fun l => 0 <= l) ls -> Forall (fun p => 0 < p) ps -> rsum ls - rsum ps <= cross_entropy ls ps - entropy ls.
Proof.
  unfold entropy, cross_entropy. revert ps; induction ls as [|l ls IH]; intros [|p ps] E Hl Hp; cbn in E; try discriminate; cbn [map2]; [rewrite !rsum_nil; lra|]. inversion Hl as [|? ? L1 L2]; subst. inversion Hp as [|? ? P1 P2]; subst. injection E as E. specialize (IH ps E L2 P2). rewrite !rsum_cons.
  assert (l - p <= l * ln l - l * ln p); [|lra]. destruct (Req_dec l 0) as [->|Hn]; [lra|]. assert (Hl0 : 0 < l) by lra. assert (Hr : ln (p / l) <= p / l - 1).
  { pose proof (exp_ineq1_le (ln (p / l))) as H. rewrite exp_ln in H; [lra|]. now apply Rdiv_lt_0_compat. }
  rewrite ln_div in Hr by lra. apply (Rmult_le_compat_l l) in Hr; [|lra]. replace (l * (p / l - 1)) with (p - l) in Hr by (field; lra). lra.
Qed.
(*@ C50_shape : for rows of equal positive length: the value is >= 0 when the labels are non-negative; adding a constant to all logits of a row does not change it; if the labels are a distribution it is at least their entropy, with equality when softmax(x) equals the labels. *)
Lemma ce_shape : forall xs ls, length ls = length xs -> xs <> [] -> Forall (fun l => 0 <= l) ls ->
  0 <= cross_entropy ls (softmax xs) /\ (forall c, cross_entropy ls (softmax (map (fun x => x + c) xs)) = cross_entropy ls (softmax xs)) /\
  (rsum ls = 1 -> entropy ls <= cross_entropy ls (softmax xs)) /\ (softmax xs = ls -> cross_entropy ls (softmax xs) = entropy ls).
Proof.
  intros xs ls E Hx Hl. destruct (softmax_distribution xs Hx) as (Hp & Hs). assert (Lp : length ls = length (softmax xs)) by (unfold softmax; now rewrite map_length).
  split; [|split; [intros c; now rewrite softmax_shift|split]].
  - assert (Hle : Forall (fun p => p <= 1) (softmax xs)).
    { clear - Hp Hs. revert Hp Hs. generalize (softmax xs). intros ps Hp Hs. assert (G : forall a, In a ps -> a <= rsum ps).
      { clear Hs. induction Hp as [|p ps H1 H2 IH]; intros a Ha; [easy|]. rewrite rsum_cons. assert (0 <= rsum ps) by (apply rsum_nonneg; eapply Forall_impl; [|exact H2]; intros; cbn in *; lra). destruct Ha as [->|Ha]; [lra|]. specialize (IH a Ha). lra. }
      rewrite Hs in G. now apply Forall_forall. }
    clear Hs E Hx. unfold cross_entropy. revert ls Hl Lp. induction Hp as [|p ps H1 H2 IH]; intros [|l ls] Hl Lp; cbn in Lp; try discriminate; cbn [map2]; [rewrite rsum_nil; lra|]. inversion Hl; subst. inversion Hle; subst. injection Lp as Lp. rewrite rsum_cons.
    specialize (IH H6 ls H4 Lp). assert (ln p <= 0) by (rewrite <- ln_1; destruct (Req_dec p 1) as [->|]; [lra|]; apply Rlt_le, ln_increasing; lra). nra.
  - intros H1. pose proof (gibbs ls (softmax xs) Lp Hl Hp). lra.
  - intros ->. reflexivity.
Qed.
(*@ C50_errors : labels or logits without axes, or with no classes, raise ValueError. *)
Lemma ce_errors : forall `{O : Ops} (x l : tensor) (B : list nat), broadcasts_to (shp x) (shp l) -> shp x = [] \/ shp x = B ++ [0%nat] -> softmax_cross_entropy x l = Err EValue.
Proof.
  intros O x l B Ha Hx. apply broadcasts_iff in Ha. unfold softmax_cross_entropy. rewrite Ha. cbn [rbind]. unfold log_softmax, last_dim. destruct Hx as [->| ->]; [reflexivity|]. destruct (B ++ [0%nat]) as [|x0 l0] eqn:EB; [destruct B; discriminate|]. rewrite <- EB, last_snoc. reflexivity.
Qed.

(*@ C50_one_logit_class : (finding) logits whose last axis has size 1 pass the broadcast assertion against labels with any number n of classes, and the loss is then 0 everywhere, whatever the finite logits and labels: the softmax runs over the single logit class before the labels are broadcast. *)
Lemma ce_one_class : forall `{P : Platform} (x l : tensor) (B B' : list nat) (n : nat), twf x -> twf l -> shp l = B ++ [n] -> shp x = B' ++ [1%nat] -> broadcasts_to B' B -> Forall (fun a => exists v, a = Fin v) (dat x) -> Forall (fun a => exists v, a = Fin v) (dat l) ->
  exists r, softmax_cross_entropy x l = Ok r /\ joined l x r B /\ forall o, valid B o -> tget r o = Fin 0.
Proof.
  intros P x l B B' n Wx Wl El Ex Hb Fx Fl. assert (Ha : broadcasts_to (shp x) (shp l)) by (destruct Hb as (pre & b' & -> & Hb); rewrite El, Ex; exists pre, (b' ++ [n]); split; [now rewrite app_assoc|]; apply Forall2_app; [exact Hb|constructor; [now right|constructor]]).
  apply broadcasts_iff in Ha, Hb. unfold softmax_cross_entropy. rewrite Ha. cbn [rbind]. destruct (log_softmax_val x B' 1 Wx Ex ltac:(lia)) as (s & Es & Ds & Ss & Ws & Hs). nx. rewrite Es. cbn [rbind].
  apply assert_bshape in Ha, Hb. destruct (bin_x (@fmul (XROps P)) l s (shp l)) as (w & Ew & (Dw & Sw & Ww) & Vw); [exact Wl|exact Ws|rewrite bshape_comm; rewrite Ss, <- Ex; exact Ha|]. nx. rewrite Ew. cbn [rbind]. rewrite El in Sw.
  destruct (@last_drop_val (XROps P) (@fsum (XROps P)) w B n Sw) as (k & Ek & Dk & Sk & Wk & Hk). nx. rewrite Ek. cbn [rbind]. eexists. split; [reflexivity|]. split; [split; [|split; [exact Sk|now apply emap_wf]]; etransitivity; [exact Dk|]; rewrite Dw, Ds; reflexivity|].
  intros o V. unfold un. rewrite (@tget_emap_val (XROps P)) by (auto; nx; rewrite Sk; exact V). destruct (bshape_valid _ _ _ o Hb V) as (V' & _).
  assert (At : forall t i, Forall (fun a => exists v, a = Fin v) (dat t) -> exists v, @tget (XROps P) t i = Fin v).
  { clear. intros t i H. unfold tget. nx. generalize (ravel (shp t) i). revert H. generalize (dat t). intros q0 H. induction H as [|a q (v & ->) H IH]; intros k; [exists 0; destruct k; cbn [nth]; apply f0|]. destruct k; cbn [nth]; [now exists v|apply IH]. }
  destruct (At x (bidx B' o ++ [0%nat]) Fx) as (y & Ey). assert (Rs : @row (XROps P) s (bidx B' o) = map Fin (map ln (softmax [y]))) by (apply Hs; [exact V'|]; unfold row; nx; rewrite Ex, last_snoc; cbn [seq map]; rewrite Ey; reflexivity).
  assert (Ez : @tget (XROps P) s (bidx B' o ++ [0%nat]) = Fin 0).
  { unfold row in Rs. nx. rewrite Ss, last_snoc in Rs. cbn [seq map] in Rs. injection Rs as ->. f_equal. unfold softmax. cbn [map]. rewrite rsum_cons, rsum_nil, Rplus_0_r. pose proof (exp_pos y). unfold Rdiv. rewrite Rinv_r by lra. apply ln_1. }
  assert (Rw : @row (XROps P) w o = map Fin (map (fun _ => 0) (seq 0 n))).
  { etransitivity; [apply (@row_of (XROps P) w B n o (fun _ => Fin 0) Sw)|now rewrite map_map]. intros j Hj. assert (Vj : valid (shp l) (o ++ [j])) by (nx; rewrite El; apply valid_snoc; exists o, j; auto). rewrite (Vw _ Vj).
    destruct (At l (bidx (shp l) (o ++ [j])) Fl) as (v & Ev). unfold bget at 1. nx. rewrite Ev. unfold bget. nx. rewrite Ss, bidx_snoc by (pose proof (valid_length _ _ V); pose proof (bshape_length _ _ _ Hb); lia). cbn [Nat.eqb]. rewrite Ez. cbn [fmul XROps]. rewrite xmul_fin, Rmult_0_r. reflexivity. }
  nx. rewrite (Hk o V). nx. rewrite Rw, fsum_fin. cbn [fneg XROps xneg]. f_equal. assert (E0 : rsum (map (fun _ : nat => 0) (seq 0 n)) = 0) by (generalize (seq 0 n); induction l0 as [|q l0 IH]; cbn [map]; [apply rsum_nil|rewrite rsum_cons, IH; lra]). rewrite E0. lra.
Qed.

(** ** C51 *)
Definition cos_of (eps : R) (ts xs : list R) : R := dot ts xs / (Rmax (norm2 ts) eps * Rmax (norm2 xs) eps).
Section X5.
  Context {P : Platform}.
  Notation xr := (XROps P).
  (** The rows of t / norms(t). *)
  Lemma unit_rows (t : gt XR) (eps : R) B n : twf t -> shp t = B ++ [n] -> exists k r, @row_norms xr t (Fin eps) = Ok k /\ @bin xr (@fdiv xr) t k = Ok r /\ dt r = dt t /\ shp r = B ++ [n] /\ twf r /\
    forall o ts, valid B o -> @row xr t o = map Fin ts -> @row xr r o = map (fun a => xdiv (Fin a) (Fin (Rmax (norm2 ts) eps))) ts.
  Proof.
    intros W E. unfold row_norms. destruct (@last_keep_val xr (fun d l => @safe_norm xr (mkT d [length l] l) (Fin eps)) t B n E) as (k & Ek & Dk & Sk & Wk & Hk). exists k.
    destruct (@keep_rows xr (@fdiv xr) t k B n W Wk Dk E Sk) as (r & Er & Dr & Sr & Wr & Hr). exists r. split; [exact Ek|]. split; [exact Er|]. split; [exact Dr|]. split; [exact Sr|]. split; [exact Wr|]. intros o ts V Et.
    etransitivity; [exact (Hr o V)|]. nx. rewrite (Hk o V). nx. rewrite Et, map_map. apply map_ext. intros a. cbn [fdiv XROps]. f_equal. etransitivity; [apply safe_norm_val; cbn [dat]; apply Forall_map, Forall_forall; intros y _; now exists y|]. cbn [dat]. rewrite map_map. cbn [xval]. now rewrite map_id.
  Qed.
  Lemma xdot (D : fdt) (Da Db : fdt) (ts xs : list R) a b : a <> 0 -> b <> 0 ->
    @fsum xr D (map2 (fun u v => @fmul xr D (@conv xr Da D u) (@conv xr Db D v)) (map (fun t => xdiv (Fin t) (Fin a)) ts) (map (fun x => xdiv (Fin x) (Fin b)) xs)) = Fin (dot ts xs / (a * b)).
  Proof.
    intros Ha Hb. assert (E : map2 (fun u v => @fmul xr D (@conv xr Da D u) (@conv xr Db D v)) (map (fun t => xdiv (Fin t) (Fin a)) ts) (map (fun x => xdiv (Fin x) (Fin b)) xs) = map Fin (map (fun p => / (a * b) * (fst p * snd p)) (combine ts xs))).
    { revert xs; induction ts as [|t ts IH]; intros [|x xs]; cbn [map map2 combine]; try reflexivity. rewrite IH, !conv_x, !xdiv_fin by assumption. cbn [fmul XROps]. rewrite xmul_fin. cbn [fst snd]. f_equal. f_equal. field. auto. }
    etransitivity; [apply f_equal; exact E|]. etransitivity; [apply fsum_fin|]. f_equal. rewrite (rsum_map_scal (/ (a * b)) (fun p => fst p * snd p)). unfold dot. field. auto.
  Qed.
End X5.
(*@ C51_cosine_similarity : for predictions broadcastable to targets with n entries on the last axis, cosine_similarity drops that axis; wherever the two rows have non-zero clamped norms max(||.||, epsilon) the value is their dot product divided by those norms, and cosine_distance is 1 minus it. *)
Lemma cos_value : forall `{P : Platform} (x t : tensor) (eps : R) (B B' : list nat) (n : nat), twf x -> twf t -> shp t = B ++ [n] -> shp x = B' ++ [n] -> broadcasts_to (shp x) (shp t) ->
  exists r r', cosine_similarity x t (Fin eps) = Ok r /\ joined t x r B /\ cosine_distance x t (Fin eps) = Ok r' /\ joined t x r' B /\
  forall o xs ts, valid B o -> row x (bidx B' o) = map Fin xs -> row t o = map Fin ts -> Rmax (norm2 ts) eps <> 0 -> Rmax (norm2 xs) eps <> 0 ->
    tget r o = Fin (dot ts xs / (Rmax (norm2 ts) eps * Rmax (norm2 xs) eps)) /\ tget r' o = Fin (1 - dot ts xs / (Rmax (norm2 ts) eps * Rmax (norm2 xs) eps)).
Proof.
  intros P x t eps B B' n Wx Wt Et Ex Ha. apply broadcasts_iff in Ha. unfold cosine_distance, cosine_similarity. rewrite Ha. cbn [rbind].
  destruct (unit_rows t eps B n Wt Et) as (kt & ut & Ekt & Eut & Dut & Sut & Wut & Hut). destruct (unit_rows x eps B' n Wx Ex) as (kx & ux & Ekx & Eux & Dux & Sux & Wux & Hux). nx. rewrite Ekt. cbn [rbind]. rewrite Eut. cbn [rbind]. rewrite Ekx. cbn [rbind]. rewrite Eux. cbn [rbind].
  rewrite Et, Ex in Ha. apply assert_snoc in Ha. pose proof Ha as Hb. rewrite bshape_comm in Hb.
  destruct (@bin_rows (XROps P) (@fmul (XROps P)) ut ux B B' B n Wut Wux Sut Sux Hb) as (w & Ew & Dw & Sw & Ww & Hw). nx. rewrite Ew. cbn [rbind]. destruct (@last_drop_val (XROps P) (@fsum (XROps P)) w B n Sw) as (k & Ek & Dk & Sk & Wk & Hk). nx. rewrite Ek. cbn [rbind].
  assert (Dk' : dt k = promote (dt t) (dt x)) by (rewrite Dk, Dw, Dut, Dux; reflexivity).
  exists k. eexists. split; [reflexivity|]. split; [split; [exact Dk'|split; auto]|]. split; [reflexivity|]. split; [split; [exact Dk'|split; [exact Sk|now apply emap_wf]]|].
  intros o xs ts V Rx Rt Nt Nx. assert (Hv : @tget (XROps P) k o = Fin (dot ts xs / (Rmax (norm2 ts) eps * Rmax (norm2 xs) eps))).
  { etransitivity; [exact (Hk o V)|]. rewrite Dw. etransitivity; [apply f_equal; exact (Hw o V)|]. rewrite bidx_same by exact V. destruct (bshape_valid _ _ _ o Ha V) as (V' & _). nx. rewrite (Hut o ts V Rt), (Hux _ xs V' Rx). now apply xdot. }
  split; [exact Hv|]. unfold sl. rewrite (@tget_emap_val (XROps P)) by (auto; nx; rewrite Sk; exact V). nx. rewrite Hv. unfold fone. cbn [fsub fcast flit XROps]. rewrite Q2R_1. apply xsub_fin.
Qed.
(*@ C51_range : for rows of equal length, epsilon >= 0 and non-zero clamped norms: the similarity lies in [-1, 1] and the distance in [0, 2]; it is symmetric; it is unchanged by rescaling either row by a positive factor while both norms stay at least epsilon; it is 1 on identical rows of norm at least epsilon. *)
Lemma cos_shape : forall eps ts xs, length ts = length xs -> 0 <= eps -> 0 < Rmax (norm2 ts) eps -> 0 < Rmax (norm2 xs) eps ->
  -1 <= cos_of eps ts xs <= 1 /\ 0 <= 1 - cos_of eps ts xs <= 2 /\ cos_of eps xs ts = cos_of eps ts xs /\
  (forall c, 0 < c -> eps <= norm2 ts -> eps <= norm2 (map (Rmult c) ts) -> cos_of eps (map (Rmult c) ts) xs = cos_of eps ts xs) /\
  (eps <= norm2 ts -> xs = ts -> cos_of eps ts xs = 1).
Proof.
  intros eps ts xs L He Ht Hx. set (a := Rmax (norm2 ts) eps) in *. set (b := Rmax (norm2 xs) eps) in *.
  assert (Habs : Rabs (dot ts xs) <= a * b).
  { assert (H1 : norm2 ts <= a) by apply Rmax_l. assert (H2 : norm2 xs <= b) by apply Rmax_l. pose proof (norm2_nonneg ts). pose proof (norm2_nonneg xs). apply Rle_trans with (norm2 ts * norm2 xs); [|nra].
    pose proof (cauchy_schwarz ts xs L) as CS. rewrite <- !norm2_sq in CS. apply Rsqr_le_abs_0 in CS || idtac. rewrite <- (Rabs_right (norm2 ts * norm2 xs)) by nra. apply Rsqr_le_abs_0. unfold Rsqr. nra. }
  assert (Hr : -1 <= cos_of eps ts xs <= 1).
  { unfold cos_of. fold a b. assert (0 < a * b) by nra. apply Rabs_le_between_0 in Habs || idtac. unfold Rabs in Habs. split; (apply Rmult_le_reg_r with (a * b); [lra|]); unfold Rdiv; rewrite Rmult_assoc, Rinv_l by lra; destruct (Rcase_abs (dot ts xs)); lra. }
  split; [exact Hr|]. split; [lra|].
  assert (Hsym : forall l m, dot l m = dot m l). { clear. induction l as [|u l IH]; intros [|v m]; try reflexivity. rewrite !dot_cons, IH. lra. }
  split; [unfold cos_of; rewrite Hsym; f_equal; apply Rmult_comm|]. split.
  - intros c Hc H1 H2. unfold cos_of. assert (E : forall l m, dot (map (Rmult c) l) m = c * dot l m). { clear. induction l as [|u l IH]; intros [|v m]; cbn [map]; try (unfold dot; cbn [combine map]; rewrite rsum_nil; lra). rewrite !dot_cons, IH. lra. }
    rewrite E. rewrite (Rmax_left (norm2 (map (Rmult c) ts)) eps) by exact H2. fold a b. assert (Ea : a = norm2 ts) by (apply Rmax_left; exact H1). rewrite norm2_scal, Rabs_right by lra. rewrite <- Ea. field. lra.
  - intros H1 ->. unfold cos_of. fold a. assert (Ea : a = norm2 ts) by (apply Rmax_left; exact H1). rewrite Ea, norm2_sq. assert (Hs : 0 < sumsq ts) by (rewrite <- norm2_sq, <- Ea; nra). assert (Ed : dot ts ts = sumsq ts).
    { clear. induction ts as [|u ts IH]; [reflexivity|]. rewrite dot_cons, sumsq_cons, IH. reflexivity. }
    rewrite Ed. field. lra.
Qed.
(*@ C51_zero_vector : with epsilon = 0 a zero row (of at least one entry) makes similarity and distance NaN, whatever finite row it is compared with. *)
Lemma cos_zero : forall `{P : Platform} (x t : tensor) (B B' : list nat) (n : nat), twf x -> twf t -> shp t = B ++ [n] -> shp x = B' ++ [n] -> (0 < n)%nat -> broadcasts_to (shp x) (shp t) ->
  exists r r', cosine_similarity x t (Fin 0) = Ok r /\ cosine_distance x t (Fin 0) = Ok r' /\
  forall o xs, valid B o -> row x (bidx B' o) = map Fin xs -> row t o = map (fun _ => Fin 0) (seq 0 n) -> tget r o = NaN /\ tget r' o = NaN.
Proof.
  intros P x t B B' n Wx Wt Et Ex Hn Ha. apply broadcasts_iff in Ha. unfold cosine_distance, cosine_similarity. rewrite Ha. cbn [rbind].
  destruct (unit_rows t 0 B n Wt Et) as (kt & ut & Ekt & Eut & Dut & Sut & Wut & Hut). destruct (unit_rows x 0 B' n Wx Ex) as (kx & ux & Ekx & Eux & Dux & Sux & Wux & Hux). nx. rewrite Ekt. cbn [rbind]. rewrite Eut. cbn [rbind]. rewrite Ekx. cbn [rbind]. rewrite Eux. cbn [rbind].
  rewrite Et, Ex in Ha. apply assert_snoc in Ha. pose proof Ha as Hb. rewrite bshape_comm in Hb.
  destruct (@bin_rows (XROps P) (@fmul (XROps P)) ut ux B B' B n Wut Wux Sut Sux Hb) as (w & Ew & Dw & Sw & Ww & Hw). nx. rewrite Ew. cbn [rbind]. destruct (@last_drop_val (XROps P) (@fsum (XROps P)) w B n Sw) as (k & Ek & Dk & Sk & Wk & Hk). nx. rewrite Ek. cbn [rbind].
  exists k. eexists. split; [reflexivity|]. split; [reflexivity|]. intros o xs V Rx Rt. assert (Hv : @tget (XROps P) k o = NaN).
  { etransitivity; [exact (Hk o V)|]. rewrite Dw. etransitivity; [apply f_equal; exact (Hw o V)|]. rewrite bidx_same by exact V. destruct (bshape_valid _ _ _ o Ha V) as (V' & _). nx.
    assert (Rt' : @row (XROps P) t o = map Fin (map (fun _ => 0) (seq 0 n))) by (rewrite map_map; exact Rt). rewrite (Hut o _ V Rt'), (Hux _ xs V' Rx).
    assert (Hlen : length xs = n) by (pose proof (eq_trans (eq_sym (@row_length (XROps P) x (bidx B' o))) (f_equal (@length XR) Rx)) as HH; rewrite map_length in HH; nx; rewrite Ex, last_snoc in HH; congruence).
    assert (N0 : norm2 (map (fun _ => 0) (seq 0 n)) = 0) by (apply norm2_0, Forall_map, Forall_forall; reflexivity). rewrite N0, Rmax_left by lra. destruct n as [|n]; [lia|]. destruct xs as [|y xs]; [discriminate|]. cbn [seq map map2]. rewrite !conv_x, xdiv_zero, rsgn_0. reflexivity. }
  split; [exact Hv|]. unfold sl. rewrite (@tget_emap_val (XROps P)) by (auto; nx; rewrite Sk; exact V). nx. rewrite Hv. reflexivity.
Qed.

(** ** Examples *)
Definition vec (l : list R) : gt XR := mkT F32 [length l] (map Fin l).
Lemma vec_wf l : twf (vec l).
Proof. unfold twf, vec. cbn. rewrite map_length. lia. Qed.
(*@ex C47_example *)
Lemma huber_example : forall `{P : Platform}, exists r, huber_loss (vec [3; - (1 / 2)]) (Some (mkT F32 [] [Fin 0])) (Fin 1) = Ok r /\ shp r = [2%nat] /\ tget r [0%nat] = Fin (5 / 2) /\ tget r [1%nat] = Fin (1 / 8).
Proof.
  intros P. destruct (huber_value (vec [3; - (1 / 2)]) (mkT F32 [] [Fin 0]) 1 [2%nat] (vec_wf _) eq_refl eq_refl ltac:(lra)) as (r & Er & (_ & Sr & _) & H). exists r. split; [exact Er|]. split; [exact Sr|].
  rewrite (H [0%nat] 3 0 ltac:(cbn; lia) eq_refl eq_refl), (H [1%nat] (- (1 / 2)) 0 ltac:(cbn; lia) eq_refl eq_refl). split; f_equal.
  - rewrite Rminus_0_r, Rabs_right by lra. destruct (Rle_dec 3 1); lra.
  - rewrite Rminus_0_r, Rabs_left by lra. destruct (Rle_dec (- - (1 / 2)) 1); lra.
Qed.
(*@ex C48_example *)
Lemma smooth_example : forall `{P : Platform}, exists r, smooth_labels (mkT F32 [2%nat; 2%nat] [Fin 0; Fin 1; Fin 1; Fin 0]) (Fin (1 / 10)) = Ok r /\ row r [0%nat] = [Fin (5 / 100); Fin (95 / 100)].
Proof.
  intros P. destruct (smooth_value (mkT F32 [2%nat; 2%nat] [Fin 0; Fin 1; Fin 1; Fin 0]) (1 / 10) [2%nat] 2 eq_refl eq_refl ltac:(lia)) as (r & Er & _ & _ & H). exists r. split; [exact Er|]. etransitivity; [apply (H [0%nat] [0; 1]); [cbn; lia|reflexivity]|]. cbn [map INR]. apply f_equal2; [f_equal; lra|]. apply f_equal2; [f_equal; lra|reflexivity].
Qed.
(*@ex C49_example *)
Lemma bce_example : forall `{P : Platform}, exists r, sigmoid_binary_cross_entropy (mkT F32 [1%nat] [Fin 0]) (vec [1; 0]) = Ok r /\ tget r [0%nat] = Fin (ln 2) /\ tget r [1%nat] = Fin (ln 2).
Proof.
  intros P. destruct (bce_value (mkT F32 [1%nat] [Fin 0]) (vec [1; 0]) eq_refl (vec_wf _) (bcast_ok [1%nat] [2%nat] eq_refl)) as (r & Er & _ & H). exists r. split; [exact Er|].
  assert (S0 : sigmoid 0 = / 2) by (unfold sigmoid; rewrite Ropp_0, exp_0; lra). assert (L : ln (/ 2) = - ln 2) by (apply ln_Rinv; lra).
  rewrite (H [0%nat] 0 1 ltac:(cbn; lia) eq_refl eq_refl), (H [1%nat] 0 0 ltac:(cbn; lia) eq_refl eq_refl). rewrite S0. replace (1 - / 2) with (/ 2) by lra. rewrite L. split; f_equal; lra.
Qed.
(*@ex C50_example *)
Lemma ce_example : forall `{P : Platform}, exists r, softmax_cross_entropy (vec [7; 7]) (vec [1; 0]) = Ok r /\ shp r = [] /\ tget r [] = Fin (ln 2).
Proof.
  intros P. destruct (ce_value (vec [7; 7]) (vec [1; 0]) [] [] 2 (vec_wf _) (vec_wf _) eq_refl eq_refl ltac:(lia) (bcast_ok [2%nat] [2%nat] eq_refl)) as (r & Er & (_ & Sr & _) & H). exists r. split; [exact Er|]. split; [exact Sr|].
  rewrite (H [] [7; 7] [1; 0]); [|exact I|reflexivity|reflexivity]. f_equal. unfold cross_entropy, softmax. cbn [map map2]. rewrite !rsum_cons, rsum_nil. pose proof (exp_pos 7). replace (exp 7 / (exp 7 + (exp 7 + 0))) with (/ 2) by (field; lra). rewrite ln_Rinv by lra. lra.
Qed.
(*@ex C50_one_logit_example *)
Lemma ce_one_example : forall `{P : Platform}, exists r, softmax_cross_entropy (mkT F32 [2%nat; 1%nat] [Fin 5; Fin (-3)]) (mkT F32 [2%nat; 3%nat] (map Fin [0; 1; 0; 0; 0; 1])) = Ok r /\ shp r = [2%nat] /\ tget r [0%nat] = Fin 0 /\ tget r [1%nat] = Fin 0.
Proof.
  intros P. destruct (ce_one_class (mkT F32 [2%nat; 1%nat] [Fin 5; Fin (-3)]) (mkT F32 [2%nat; 3%nat] (map Fin [0; 1; 0; 0; 0; 1])) [2%nat] [2%nat] 3 eq_refl eq_refl eq_refl eq_refl (bcast_ok [2%nat] [2%nat] eq_refl)) as (r & Er & (_ & Sr & _) & H).
  - repeat constructor; eexists; reflexivity.
  - apply Forall_map, Forall_forall. intros a _. now exists a.
  - exists r. split; [exact Er|]. split; [exact Sr|]. split; apply H; cbn; lia.
Qed.
(*@ex C51_example *)
Lemma cos_example : forall `{P : Platform}, exists r, cosine_similarity (vec [3; 4]) (vec [4; 3]) (Fin 0) = Ok r /\ tget r [] = Fin (24 / 25).
Proof.
  intros P. destruct (cos_value (vec [3; 4]) (vec [4; 3]) 0 [] [] 2 (vec_wf _) (vec_wf _) eq_refl eq_refl (bcast_ok [2%nat] [2%nat] eq_refl)) as (r & r' & Er & _ & _ & _ & H). exists r. split; [exact Er|].
  assert (N1 : norm2 [4; 3] = 5) by (unfold norm2; cbn [map]; rewrite !rsum_cons, rsum_nil; replace (4 * 4 + (3 * 3 + 0)) with (5 * 5) by lra; apply sqrt_square; lra). assert (N2 : norm2 [3; 4] = 5) by (unfold norm2; cbn [map]; rewrite !rsum_cons, rsum_nil; replace (3 * 3 + (4 * 4 + 0)) with (5 * 5) by lra; apply sqrt_square; lra).
  destruct (H [] [3; 4] [4; 3]) as (E & _); [exact I|reflexivity|reflexivity|rewrite N1, Rmax_left; lra|rewrite N2, Rmax_left; lra|]. rewrite E. f_equal. rewrite N1, N2, Rmax_left by lra. unfold dot. cbn [combine map fst snd]. rewrite !rsum_cons, rsum_nil. lra.
Qed.
