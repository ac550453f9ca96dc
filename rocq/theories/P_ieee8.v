(** IEEE-754: losses. *)
From Verif Require Export P_ieee7 P_loss.
From Coq Require Import Psatz Qreals Bool.
From Flocq Require Import Core.Core IEEE754.BinarySingleNaN.
Open Scope R_scope.
#[local] Existing Instance FlOps.
(*@header
From Flocq Require Import Core.Core IEEE754.BinarySingleNaN.
Open Scope R_scope.
#[local] Existing Instance FlOps.
*)
Local Notation fe d := (SpecFloat.fexp (fprec d) (femax d)).

(** ** In any arithmetic: the error and the losses, element by element *)
(** The dtype and shape of the error, and the error at a position: prediction minus target in the promoted dtype, or the prediction. *)
Definition err_dt `{O : Ops} (p : tensor) (t : option tensor) : fdt := match t with Some t => promote (dt p) (dt t) | None => dt p end.
Definition err_shape `{O : Ops} (p : tensor) (t : option tensor) : option (list nat) := match t with Some t => bshape (shp p) (shp t) | None => Some (shp p) end.
Definition err_at `{O : Ops} (p : tensor) (t : option tensor) (o : list nat) : F :=
  match t with Some t => let D := promote (dt p) (dt t) in fsub D (conv (dt p) D (bget p o)) (conv (dt t) D (bget t o)) | None => tget p o end.
Definition twf_o `{O : Ops} (t : option tensor) : Prop := match t with Some t => twf t | None => True end.
Lemma err_gen `{O : Ops} p t s : twf p -> twf_o t -> err_shape p t = Some s ->
  exists e, errors p t = Ok e /\ twf e /\ dt e = err_dt p t /\ shp e = s /\ forall o, valid s o -> tget e o = err_at p t o.
Proof.
  intros Wp Wt Es. destruct t as [t|]; cbn in *.
  - destruct (bin_elem fsub p t s Wp Wt Es) as (r & Er & D & S & W & H). exists r. auto.
  - injection Es as <-. exists p. auto.
Qed.
Definition l2_f `{O : Ops} (d : fdt) (e : F) : F := fmul d (fcast d (flit (1 # 2))) (fmul d e e).
Definition huber_f `{O : Ops} (d : fdt) (delta e : F) : F :=
  let q := fmin (fabs e) (fcast d delta) in fadd d (fmul d (fcast d (flit (1 # 2))) (fmul d q q)) (fmul d (fcast d delta) (fsub d (fabs e) q)).
Lemma tget_sl `{O : Ops} op c t o : twf t -> valid (shp t) o -> tget (sl op c t) o = op (dt t) (fcast (dt t) c) (tget t o).
Proof. intros. unfold sl. now rewrite tget_emap_gen. Qed.
Lemma tget_sr `{O : Ops} op c t o : twf t -> valid (shp t) o -> tget (sr op t c) o = op (dt t) (tget t o) (fcast (dt t) c).
Proof. intros. unfold sr. now rewrite tget_emap_gen. Qed.
Lemma tget_un `{O : Ops} op t o : twf t -> valid (shp t) o -> tget (un op t) o = op (dt t) (tget t o).
Proof. intros. unfold un. now rewrite tget_emap_gen. Qed.
Lemma bin_same_elem `{O : Ops} op (a b : tensor) : twf a -> twf b -> dt b = dt a -> shp b = shp a ->
  exists r, bin op a b = Ok r /\ twf r /\ dt r = dt a /\ shp r = shp a /\ forall o, valid (shp a) o -> tget r o = op (dt a) (tget a o) (tget b o).
Proof.
  intros Wa Wb Ed Es. destruct (bin_elem op a b (shp a) Wa Wb) as (r & Er & D & S & W & H); [rewrite Es; apply bshape_same|].
  exists r. rewrite Ed, promote_same in *. repeat split; auto. intros o V. rewrite (H o V), !conv_same. unfold bget. now rewrite Es, bidx_same.
Qed.
Lemma l2_gen `{O : Ops} p t s : twf p -> twf_o t -> err_shape p t = Some s ->
  exists r, l2_loss p t = Ok r /\ twf r /\ dt r = err_dt p t /\ shp r = s /\ forall o, valid s o -> tget r o = l2_f (err_dt p t) (err_at p t o).
Proof.
  intros Wp Wt Es. destruct (err_gen p t s Wp Wt Es) as (e & Ee & We & De & Se & He). unfold l2_loss. rewrite Ee. cbn [rbind]. eexists. split; [reflexivity|].
  split; [now apply emap_wf, emap_wf|]. split; [exact De|]. split; [exact Se|]. intros o V. rewrite <- Se in V.
  rewrite tget_sl by (auto; now apply emap_wf). unfold tsquare. rewrite tget_un by auto. cbn [dt un emap]. rewrite De, (He o) by (now rewrite <- Se). reflexivity.
Qed.
Lemma huber_gen `{O : Ops} p t delta s : twf p -> twf_o t -> err_shape p t = Some s ->
  exists r, huber_loss p t delta = Ok r /\ twf r /\ dt r = err_dt p t /\ shp r = s /\ forall o, valid s o -> tget r o = huber_f (err_dt p t) delta (err_at p t o).
Proof.
  intros Wp Wt Es. destruct (err_gen p t s Wp Wt Es) as (e & Ee & We & De & Se & He). unfold huber_loss. rewrite Ee. cbn [rbind].
  set (A := un (fun _ => fabs) e). set (Q := sr (fun _ => fmin) A delta). assert (WA : twf A) by now apply emap_wf. assert (WQ : twf Q) by now apply emap_wf.
  destruct (bin_same_elem fsub A Q WA WQ eq_refl eq_refl) as (Li & EL & WL & DL & SL & HL). rewrite EL. cbn [rbind].
  destruct (bin_same_elem fadd (sl fmul (flit (1 # 2)) (tsquare Q)) (sl fmul delta Li)) as (r & Er & Wr & Dr & Sr & Hr); [now apply emap_wf, emap_wf|now apply emap_wf|exact DL|exact SL|].
  exists r. split; [exact Er|]. split; [exact Wr|]. split; [rewrite Dr; exact De|]. split; [rewrite Sr; exact Se|].
  intros o V. assert (V' : valid (shp e) o) by now rewrite Se. rewrite (Hr o V'). rewrite !tget_sl by (auto; try (now apply emap_wf); now rewrite ?SL). unfold tsquare. rewrite tget_un by auto. rewrite (HL o V').
  unfold Q. rewrite tget_sr by auto. unfold A. rewrite tget_un by auto. rewrite (He o V). cbn [dt sl sr un emap]. rewrite DL. cbn [dt un emap A]. unfold A. cbn [dt un emap]. rewrite De. reflexivity.
Qed.

(** ** One element *)
Section Elem.
  Context `{L : Libm}.
  Lemma half_fl d : @fcast (FlOps L) d (@flit (FlOps L) (1 # 2)) = Nz (/ 2).
  Proof.
    assert (H : forall d, rto d false (/ 2) = Nz (/ 2)).
    { clear. intros d. change (/ 2) with (bpow radix2 (-1)). rewrite rto_id; [unfold fmk; now rewrite Req_bool_false by (apply Rgt_not_eq, bpow_gt_0)|apply fmt_bpow; destruct d; cbn; lia|].
      rewrite Rabs_pos_eq by apply bpow_ge_0. apply bpow_lt. destruct d; reflexivity. }
    cbn [fcast flit FlOps]. replace (Q2R (1 # 2)) with (/ 2) by (unfold Q2R; cbn; lra). rewrite Rlt_bool_false by lra. change (fround_ 53 1024 false (/ 2)) with (rto F64 false (/ 2)). rewrite H. cbn [cast_]. rewrite Rlt_bool_false by lra. apply H.
  Qed.
  Lemma half_pf : pos_fin (Nz (/ 2)). Proof. split; [reflexivity|cbn; lra]. Qed.
  (** Monotonicity of the operations on non-negative values. *)
  Lemma mul_mono d c x y : pos_fin c -> fnonneg x -> fleq x y -> fleq (mul_ (fprec d) (femax d) c x) (mul_ (fprec d) (femax d) c y).
  Proof.
    intros Hc Hx Hxy. assert (Hy : fnonneg y) by (apply nonneg_le; apply nonneg_le in Hx; now apply (fleq_trans _ x)).
    destruct Hc as (Fc & Pc). destruct (ffin x) eqn:Fx, (ffin y) eqn:Fy.
    - apply le_fin in Hxy; auto. rewrite !mul_fin by assumption. apply rto_le; try now apply sgn_ok_xor. nra.
    - destruct y as [| |[|]|]; try discriminate; cbn in Hy; try easy. rewrite (mul_pf_inf d c) by (split; assumption). pose proof (mul_pf d c x (conj Fc Pc) Hx) as N. destruct (mul_ _ _ c x) as [| |[|]|]; cbn in N; try easy.
    - destruct x as [| |[|]|]; try discriminate; cbn in Hx; try easy. destruct y as [| |[|]|]; try discriminate.
    - destruct x as [| |[|]|]; try discriminate; cbn in Hx; try easy. destruct y as [| |[|]|]; try discriminate. rewrite (mul_pf_inf d c) by (split; assumption). reflexivity.
  Qed.
  Lemma sq_mono d x y : fnonneg x -> fleq x y -> fleq (mul_ (fprec d) (femax d) x x) (mul_ (fprec d) (femax d) y y).
  Proof.
    intros Hx Hxy. assert (Hy : fnonneg y) by (apply nonneg_le; apply nonneg_le in Hx; now apply (fleq_trans _ x)).
    destruct (ffin x) eqn:Fx, (ffin y) eqn:Fy.
    - apply le_fin in Hxy; auto. rewrite !mul_fin by assumption. apply rto_le; try now apply sgn_ok_xor. assert (0 <= fval x) by (destruct x; cbn in *; try lra; discriminate). nra.
    - destruct y as [| |[|]|]; try discriminate; cbn in Hy; try easy. cbn [mul_ fneg_ xorb]. pose proof (mul_sq d x (nonneg_nn _ Hx)) as N. destruct (mul_ _ _ x x) as [| |[|]|]; cbn in N; try easy.
    - destruct x as [| |[|]|]; try discriminate; cbn in Hx; try easy. destruct y as [| |[|]|]; try discriminate.
    - destruct x as [| |[|]|]; try discriminate; cbn in Hx; try easy. destruct y as [| |[|]|]; try discriminate. reflexivity.
  Qed.
  Lemma add_mono d x y x' y' : fnonneg x -> fnonneg y -> fleq x x' -> fleq y y' -> fleq (add_ (fprec d) (femax d) x y) (add_ (fprec d) (femax d) x' y').
  Proof.
    intros Hx Hy Hxx Hyy. assert (Hx' : fnonneg x') by (apply nonneg_le; apply nonneg_le in Hx; now apply (fleq_trans _ x)). assert (Hy' : fnonneg y') by (apply nonneg_le; apply nonneg_le in Hy; now apply (fleq_trans _ y)).
    assert (T : forall z, fnonneg z -> fleq z (If false)) by (intros [| |[|]|]; cbn; easy).
    destruct (ffin x') eqn:Fx', (ffin y') eqn:Fy'.
    - assert (Fx : ffin x = true) by (destruct x as [| |[|]|], x'; try discriminate; try reflexivity; easy). assert (Fy : ffin y = true) by (destruct y as [| |[|]|], y'; try discriminate; try reflexivity; easy).
      apply le_fin in Hxx; auto. apply le_fin in Hyy; auto. rewrite !add_fin by assumption. apply rto_le; try apply add_sgn. lra.
    - replace (add_ _ _ x' y') with (If false); [apply T; now apply add_nonneg|]. destruct y' as [| |[|]|]; try discriminate; cbn in Hy'; try easy. now destruct x'.
    - replace (add_ _ _ x' y') with (If false); [apply T; now apply add_nonneg|]. destruct x' as [| |[|]|]; try discriminate; cbn in Hx'; try easy. now destruct y'.
    - replace (add_ _ _ x' y') with (If false); [apply T; now apply add_nonneg|]. destruct x' as [| |[|]|], y' as [| |[|]|]; try discriminate; cbn in Hy', Hx'; try easy.
  Qed.
  Lemma abs_nonneg_fl x : isnan_ x = false -> fnonneg (abs_ x).
  Proof. destruct x; cbn; try easy. intros _. apply Rabs_pos. Qed.
  Lemma abs_sq d x : mul_ (fprec d) (femax d) x x = mul_ (fprec d) (femax d) (abs_ x) (abs_ x).
  Proof.
    destruct x as [s|r|s|]; try reflexivity; [..].
    - cbn. now rewrite xorb_nilpotent.
    - cbn. rewrite !xorb_nilpotent. f_equal. rewrite <- Rabs_mult, Rabs_pos_eq; nra.
    - cbn. now rewrite xorb_nilpotent.
  Qed.
  Lemma l2_nan d e : isnan_ (@l2_f (FlOps L) d e) = isnan_ e.
  Proof.
    unfold l2_f. rewrite half_fl. cbn [fmul FlOps]. destruct (isnan_ e) eqn:E; [destruct e; easy|]. apply nonneg_nn, mul_pf; [exact half_pf|]. now apply mul_sq.
  Qed.
  Lemma l2_nonneg d e : isnan_ e = false -> fnonneg (@l2_f (FlOps L) d e).
  Proof. intros E. unfold l2_f. rewrite half_fl. cbn [fmul FlOps]. apply mul_pf; [exact half_pf|]. now apply mul_sq. Qed.
  Lemma l2_mono d e e' : fleq (abs_ e) (abs_ e') -> fleq (@l2_f (FlOps L) d e) (@l2_f (FlOps L) d e').
  Proof.
    intros H. destruct (fleq_nn _ _ H) as (N1 & N2). assert (isnan_ e = false) by now destruct e. unfold l2_f. rewrite half_fl. cbn [fmul FlOps]. apply mul_mono; [exact half_pf|now apply mul_sq|].
    rewrite (abs_sq d e), (abs_sq d e'). apply sq_mono; [now apply abs_nonneg_fl|exact H].
  Qed.
  Lemma l2_inf d s : @l2_f (FlOps L) d (If s) = If false.
  Proof. unfold l2_f. rewrite half_fl. cbn [fmul FlOps mul_ fneg_]. rewrite xorb_nilpotent, Rlt_bool_false by lra. reflexivity. Qed.
  Lemma min_mono a b c : isnan_ c = false -> fleq a b -> fleq (min_ a c) (min_ b c).
  Proof.
    intros Hc H. destruct (fleq_nn _ _ H) as (N1 & N2). destruct (min_spec a c N1 Hc) as [(-> & H1)|(-> & H1)], (min_spec b c N2 Hc) as [(-> & H2)|(-> & H2)]; auto.
    - now apply (fleq_trans _ a).
    - now apply fleq_refl.
  Qed.
  Lemma min_nonneg a b : fnonneg a -> fnonneg b -> fnonneg (min_ a b).
  Proof. intros Ha Hb. destruct (min_spec a b (nonneg_nn _ Ha) (nonneg_nn _ Hb)) as [(-> & _)|(-> & _)]; assumption. Qed.
  (** a - min a delta for a non-negative, delta positive. *)
  Lemma lin_facts d a c : fnonneg a -> pos_fin c -> in_format d a -> in_format d c -> let l := sub_ (fprec d) (femax d) a (min_ a c) in fnonneg l /\ (fleq a c -> l = Zr false).
  Proof.
    intros Ha (Fc & Pc) Ia Ic. cbn zeta.
    assert (Nc : isnan_ c = false) by (destruct c; try discriminate; reflexivity).
    assert (G : forall b, ffin a = true -> ffin b = true -> in_format d b -> fval b <= fval a -> fnonneg (sub_ (fprec d) (femax d) a b)).
    { intros b Fa Fb Ib Hle. unfold sub_. assert (Fo : ffin (opp_ b) = true) by (destruct b; try discriminate; reflexivity). assert (Vo : fval (opp_ b) = - fval b) by (destruct b; cbn; lra). rewrite add_fin by assumption. rewrite Vo.
      case Req_bool_spec; intros E; [rewrite E, rto_id by (try apply fmt_0; rewrite Rabs_R0; apply top_pos); unfold fmk; now rewrite Req_bool_true|].
      apply rto_nonneg'; [lra|apply sgn_ok_lt]. }
    assert (S : forall b, ffin b = true -> fnonneg b -> sub_ (fprec d) (femax d) b b = Zr false).
    { clear. intros b Fb Nb. unfold sub_. assert (Fo : ffin (opp_ b) = true) by (destruct b; try discriminate; reflexivity). assert (Vo : fval (opp_ b) = - fval b) by (destruct b; cbn; lra). rewrite add_fin by assumption. rewrite Vo.
      replace (fval b + - fval b) with 0 by lra. rewrite Req_bool_true by reflexivity. rewrite rto_id by (try apply fmt_0; rewrite Rabs_R0; apply top_pos). unfold fmk. rewrite Req_bool_true by reflexivity. f_equal.
      destruct b as [[|]|r| |]; try discriminate; try reflexivity. cbn in *. rewrite !Rlt_bool_false by lra. reflexivity. }
    destruct (ffin a) eqn:Fa.
    - destruct (min_spec a c (nonneg_nn _ Ha) Nc) as [(-> & H)|(E & H)].
      + rewrite S by assumption. split; [exact I|reflexivity].
      + rewrite E. apply le_fin in H; auto. split; [apply G; auto; lra|]. intros H'. apply le_fin in H'; auto. rewrite <- E.
        assert (Ev : fval a = fval c) by lra. unfold min_. rewrite (nonneg_nn _ Ha), Nc. destruct (lt_ c a) eqn:El; [apply lt_fin in El; auto; lra|]. now apply S.
    - destruct a as [| |[|]|]; try discriminate; cbn in Ha; try easy.
      assert (Em : min_ (If false) c = c) by (unfold min_; rewrite Nc; cbn [isnan_]; destruct c; try discriminate; reflexivity). rewrite Em. unfold sub_.
      split; [destruct c; try discriminate; reflexivity|]. destruct c; discriminate.
  Qed.
  Lemma lin_mono d a b c : fnonneg a -> pos_fin c -> in_format d a -> in_format d b -> in_format d c -> fleq a b -> fleq (sub_ (fprec d) (femax d) a (min_ a c)) (sub_ (fprec d) (femax d) b (min_ b c)).
  Proof.
    intros Ha Pc Ia Ib Ic H. assert (Hb : fnonneg b) by (apply nonneg_le; apply nonneg_le in Ha; now apply (fleq_trans _ a)).
    assert (Nc : isnan_ c = false) by (destruct c, Pc; try discriminate; reflexivity).
    destruct (lin_facts d a c Ha Pc Ia Ic) as (A1 & A2). destruct (lin_facts d b c Hb Pc Ib Ic) as (B1 & B2).
    destruct (le_ a c) eqn:E1; [rewrite (A2 E1); now apply nonneg_le|].
    assert (Hca : fleq c a) by (destruct (le_total a c (nonneg_nn _ Ha) Nc) as [H'|H']; [rewrite H' in E1; discriminate|exact H']).
    assert (Hcb : fleq c b) by now apply (fleq_trans _ a).
    assert (M : forall z, isnan_ z = false -> fleq c z -> le_ z c = false -> min_ z c = c).
    { clear - Nc. intros z Nz_ H1 H2. destruct (min_spec z c Nz_ Nc) as [(E & H)|(E & H)]; [unfold fleq in H; rewrite H in H2; discriminate|exact E]. }
    rewrite (M a (nonneg_nn _ Ha) Hca E1). assert (E2 : le_ b c = false). { destruct (le_ b c) eqn:E; [|reflexivity]. rewrite (fleq_trans _ _ _ H E) in E1. discriminate. } rewrite (M b (nonneg_nn _ Hb) Hcb E2).
    unfold sub_. destruct Pc as (Fc & Pc). assert (Fo : ffin (opp_ c) = true) by (destruct c; try discriminate; reflexivity). assert (Vo : fval (opp_ c) = - fval c) by (destruct c; cbn; lra).
    destruct (ffin a) eqn:Fa, (ffin b) eqn:Fb.
    - apply le_fin in H; auto. rewrite !add_fin by assumption. apply rto_le; try apply add_sgn. lra.
    - destruct b as [| |[|]|]; try discriminate; cbn in Hb; try easy. pose proof (lin_facts d a c Ha (conj Fc Pc) Ia Ic) as (N & _). rewrite (M a (nonneg_nn _ Ha) Hca E1) in N. unfold sub_ in N. replace (add_ _ _ (If false) (opp_ c)) with (If false) by (destruct c; try discriminate; reflexivity).
      destruct (add_ _ _ a (opp_ c)) as [| |[|]|]; cbn in N; try easy.
    - destruct a as [| |[|]|]; try discriminate; cbn in Ha; try easy. destruct b as [| |[|]|]; discriminate.
    - destruct a as [| |[|]|]; try discriminate; cbn in Ha; try easy. destruct b as [| |[|]|]; try discriminate. destruct c; try discriminate; reflexivity.
  Qed.
  Lemma huber_nonneg d (delta e : fl) : pos_fin (cast_ d delta) -> in_format d e -> isnan_ e = false -> fnonneg (@huber_f (FlOps L) d delta e).
  Proof.
    intros Hd Ie He. unfold huber_f. rewrite half_fl. cbn [fmul fadd fsub fmin fabs fcast FlOps].
    assert (Ha : fnonneg (abs_ e)) by now apply abs_nonneg_fl. assert (Ia : in_format d (abs_ e)) by (destruct e as [|r| |]; try exact I; destruct Ie as (I1 & I2 & I3); cbn; rewrite Rabs_Rabsolu; split; [now apply Rabs_no_R0|split; [now apply generic_format_abs|exact I3]]).
    destruct (lin_facts d (abs_ e) (cast_ d delta) Ha Hd Ia (cast_format d delta)) as (N & _).
    assert (Hm : fnonneg (min_ (abs_ e) (cast_ d delta))) by (apply min_nonneg; [exact Ha|apply positive_nonneg, pos_fin_pos, Hd]).
    apply add_nonneg; [apply mul_pf; [exact half_pf|now apply mul_sq, nonneg_nn]|now apply mul_pf].
  Qed.
  Lemma abs_format d e : in_format d e -> in_format d (abs_ e).
  Proof. intros Ie. destruct e as [|r| |]; try exact I; destruct Ie as (I1 & I2 & I3); cbn; rewrite Rabs_Rabsolu; split; [now apply Rabs_no_R0|split; [now apply generic_format_abs|exact I3]]. Qed.
  Lemma huber_nan d (delta e : fl) : pos_fin (cast_ d delta) -> in_format d e -> isnan_ (@huber_f (FlOps L) d delta e) = isnan_ e.
  Proof.
    intros Hd Ie. destruct (isnan_ e) eqn:E; [|now apply nonneg_nn, huber_nonneg]. destruct e; try discriminate. unfold huber_f. rewrite half_fl. reflexivity.
  Qed.
  Lemma huber_mono d (delta e e' : fl) : pos_fin (cast_ d delta) -> in_format d e -> in_format d e' -> fleq (abs_ e) (abs_ e') -> fleq (@huber_f (FlOps L) d delta e) (@huber_f (FlOps L) d delta e').
  Proof.
    intros Hd Ie Ie' H. destruct (fleq_nn _ _ H) as (N1 & N2). unfold huber_f. rewrite half_fl. cbn [fmul fadd fsub fmin fabs fcast FlOps].
    assert (Ne : isnan_ e = false) by now destruct e. assert (Ha : fnonneg (abs_ e)) by now apply abs_nonneg_fl. pose proof (positive_nonneg _ (pos_fin_pos _ Hd)) as Hc.
    assert (Hm : fnonneg (min_ (abs_ e) (cast_ d delta))) by now apply min_nonneg.
    destruct (lin_facts d (abs_ e) (cast_ d delta) Ha Hd (abs_format d e Ie) (cast_format d delta)) as (N & _).
    apply add_mono.
    - apply mul_pf; [exact half_pf|now apply mul_sq, nonneg_nn].
    - now apply mul_pf.
    - apply mul_mono; [exact half_pf|now apply mul_sq, nonneg_nn|]. apply sq_mono; [exact Hm|]. apply min_mono; [now apply nonneg_nn|exact H].
    - apply mul_mono; [exact Hd|exact N|]. apply lin_mono; auto; try now apply abs_format. apply cast_format.
  Qed.
  Lemma eq_zr_add d x : fnonneg x -> in_format d x -> eq_ (add_ (fprec d) (femax d) x (Zr false)) x = true.
  Proof.
    intros Hx Ix. rewrite add_comm_fl. apply add_zr_eq; [exact Ix|now apply nonneg_nn].
  Qed.
  Lemma huber_l2 d (delta e : fl) : pos_fin (cast_ d delta) -> in_format d e -> fleq (abs_ e) (cast_ d delta) -> eq_ (@huber_f (FlOps L) d delta e) (@l2_f (FlOps L) d e) = true.
  Proof.
    intros Hd Ie H. destruct (fleq_nn _ _ H) as (N1 & N2). unfold huber_f, l2_f. rewrite half_fl. cbn [fmul fadd fsub fmin fabs fcast FlOps].
    assert (Ne : isnan_ e = false) by now destruct e. assert (Ha : fnonneg (abs_ e)) by now apply abs_nonneg_fl.
    destruct (lin_facts d (abs_ e) (cast_ d delta) Ha Hd (abs_format d e Ie) (cast_format d delta)) as (_ & Z). rewrite (Z H).
    assert (Em : min_ (abs_ e) (cast_ d delta) = abs_ e).
    { unfold min_. rewrite N1, N2. rewrite lt_negb by assumption. unfold fleq in H. now rewrite H. } rewrite Em, <- abs_sq.
    assert (E0 : mul_ (fprec d) (femax d) (cast_ d delta) (Zr false) = Zr false).
    { destruct Hd as (Fd & Pd). rewrite mul_fin by auto. cbn [fval]. rewrite Rmult_0_r, rto_id by (try apply fmt_0; rewrite Rabs_R0; apply top_pos). unfold fmk. rewrite Req_bool_true by reflexivity. destruct (cast_ d delta) as [|r| |]; try discriminate; cbn in *; [lra|]. now rewrite Rlt_bool_false by lra. }
    rewrite E0. apply eq_zr_add; [apply mul_pf; [exact half_pf|now apply mul_sq]|apply mul_format].
  Qed.
End Elem.

(** ** Promotion is exact *)
Lemma fmt_up d D r : (fprec d <= fprec D)%Z -> (femax d <= femax D)%Z -> (SpecFloat.emin (fprec D) (femax D) <= SpecFloat.emin (fprec d) (femax d))%Z -> fmt d r -> fmt D r.
Proof. intros H1 H2 H3. apply generic_inclusion_mag. intros _. unfold SpecFloat.fexp. lia. Qed.
Lemma up_format d d' x : in_format d x -> in_format (promote d d') x.
Proof.
  destruct x as [|r| |]; try (intros; exact I). intros (A & B & C). split; [exact A|].
  assert (H : (fprec d <= fprec (promote d d'))%Z /\ (femax d <= femax (promote d d'))%Z /\ (SpecFloat.emin (fprec (promote d d')) (femax (promote d d')) <= SpecFloat.emin (fprec d) (femax d))%Z) by (destruct d, d'; cbn; unfold SpecFloat.emin; cbn; lia).
  destruct H as (H1 & H2 & H3). split; [now apply (fmt_up d)|]. eapply Rlt_le_trans; [exact C|]. now apply bpow_le.
Qed.
Lemma promote_comm d d' : promote d d' = promote d' d. Proof. destruct d, d'; reflexivity. Qed.
Lemma conv_up `{L : Libm} d d' x : in_format d x -> @conv (FlOps L) d (promote d d') x = x.
Proof. intros H. unfold conv. destruct (fdt_eqb d (promote d d')); [reflexivity|]. cbn [fcast FlOps]. now apply cast_id, up_format. Qed.
Lemma conv_up' `{L : Libm} d d' x : in_format d x -> @conv (FlOps L) d (promote d' d) x = x.
Proof. rewrite promote_comm. apply conv_up. Qed.
(** A tensor whose elements are members of the format of its dtype. *)
Definition tfmt (t : gt fl) : Prop := Forall (in_format (dt t)) (dat t).
Lemma tget_fmt `{L : Libm} (t : gt fl) o : tfmt t -> in_format (dt t) (@tget (FlOps L) t o).
Proof.
  intros H. unfold tget. destruct (nth_in_or_default (ravel (shp t) o) (dat t) (@fzero (FlOps L))) as [Hi|E].
  - unfold tfmt in H. rewrite Forall_forall in H. now apply H.
  - exact (eq_ind_r (fun z => in_format (dt t) z) (I : in_format (dt t) (Zr false)) (eq_trans E fl0)).
Qed.
Definition tfmt_o (t : option (gt fl)) : Prop := match t with Some t => tfmt t | None => True end.
Lemma err_format `{L : Libm} p t o : tfmt p -> in_format (@err_dt (FlOps L) p t) (@err_at (FlOps L) p t o).
Proof.
  intros H. destruct t as [t|]; cbn [err_at err_dt]; [apply add_format|]. now apply tget_fmt.
Qed.
Lemma sub_nan d x y : isnan_ (sub_ (fprec d) (femax d) x y) = true <-> isnan_ x = true \/ isnan_ y = true \/ exists s, x = If s /\ y = If s.
Proof.
  unfold sub_. destruct x as [s|r|s|], y as [t|q|t|]; cbn [opp_ add_ isnan_]; rewrite ?rto_nan; try (split; [discriminate|intros [H|[H|(u & H1 & H2)]]; discriminate]); try tauto.
  destruct s, t; cbn; (split; [try discriminate; eauto|intros [H|[H|(u & H1 & H2)]]; try discriminate; try reflexivity; congruence]).
Qed.

(*@ C74_l2_huber_ieee : IEEE arithmetic, any shapes and dtypes (with or without targets), any finite positive delta that does not vanish in the dtype: every element of l2_loss and huber_loss is NaN exactly when the error there is NaN, otherwise >= 0; it is +inf for an infinite error; it is non-decreasing in the magnitude of the error (over all pairs of positions, in spite of rounding); and huber_loss equals l2_loss wherever |error| <= delta. *)
Lemma loss_ieee : forall `{L : Libm} (p : tensor) (t : option tensor) (delta : fl) (s : list nat), twf p -> twf_o t -> tfmt p -> err_shape p t = Some s ->
  let D := err_dt p t in fisfinite (fcast D delta) = true -> flt fzero (fcast D delta) = true ->
  exists r h, l2_loss p t = Ok r /\ huber_loss p t delta = Ok h /\ dt r = D /\ shp r = s /\ dt h = D /\ shp h = s /\
    forall o, valid s o -> let e := err_at p t o in
      (fisnan (tget r o) = fisnan e /\ fisnan (tget h o) = fisnan e) /\
      (fisnan e = false -> fle fzero (tget r o) = true /\ fle fzero (tget h o) = true) /\
      (forall b, e = If b -> tget r o = If false /\ tget h o = If false) /\
      (fle (fabs e) (fcast D delta) = true -> feqb (tget h o) (tget r o) = true) /\
      (forall o', valid s o' -> fle (fabs e) (fabs (err_at p t o')) = true -> fle (tget r o) (tget r o') = true /\ fle (tget h o) (tget h o') = true).
Proof.
  intros L p t delta s Wp Wt Fp Es D Fd Pd. rewrite fl0 in Pd. cbn [fisfinite fcast flt FlOps] in Fd, Pd.
  assert (Hd : pos_fin (cast_ D delta)) by (split; [exact Fd|]; apply lt_fin in Pd; auto).
  destruct (l2_gen (O := FlOps L) p t s Wp Wt Es) as (r & Er & Wr & Dr & Sr & Hr). destruct (huber_gen (O := FlOps L) p t delta s Wp Wt Es) as (h & Eh & Wh & Dh & Sh & Hh).
  exists r, h. split; [exact Er|]. split; [exact Eh|]. split; [exact Dr|]. split; [exact Sr|]. split; [exact Dh|]. split; [exact Sh|]. intros o V. cbn zeta. rewrite (Hr o V), (Hh o V). rewrite fl0.
  assert (Ie : forall o, in_format D (err_at p t o)) by (intros o'; now apply err_format).
  fold D. cbn [fisnan fle feqb fabs fcast FlOps]. split; [split; [apply l2_nan|now apply huber_nan]|]. split; [intros Hn; split; [apply nonneg_le, l2_nonneg, Hn|apply nonneg_le, huber_nonneg; auto]|].
  split; [|split].
  - intros b ->. split; [apply l2_inf|]. unfold huber_f. rewrite half_fl. cbn [fmul fadd fsub fmin fabs fcast FlOps abs_].
    assert (Nc : isnan_ (cast_ D delta) = false) by (destruct (cast_ D delta), Hd; try discriminate; reflexivity).
    assert (Em : min_ (If false) (cast_ D delta) = cast_ D delta) by (unfold min_; rewrite Nc; cbn [isnan_]; destruct (cast_ D delta), Hd; try discriminate; reflexivity). rewrite Em.
    assert (E1 : sub_ (fprec D) (femax D) (If false) (cast_ D delta) = If false) by (unfold sub_; destruct (cast_ D delta), Hd; try discriminate; reflexivity). rewrite E1, mul_pf_inf by exact Hd.
    apply add_nn_inf. apply mul_pf; [exact half_pf|now apply mul_sq].
  - intros Hle. apply huber_l2; auto.
  - intros o' V' Hle. rewrite (Hr o' V'), (Hh o' V'). split; [now apply l2_mono|]. apply huber_mono; auto.
Qed.
(*@ C74_error_nan : IEEE arithmetic: the error between a prediction and a target (promoted exactly) is NaN only if one of them is NaN or both are the same infinity; so on finite predictions and targets the losses are never NaN. *)
Lemma err_nan : forall `{L : Libm} (p t : tensor) o, tfmt p -> tfmt t ->
  (fisnan (err_at p (Some t) o) = true <-> fisnan (bget p o) = true \/ fisnan (bget t o) = true \/ exists s, bget p o = If s /\ bget t o = If s).
Proof.
  intros L p t o Fp Ft. cbn [err_at]. unfold bget. rewrite conv_up by now apply tget_fmt. rewrite conv_up' by now apply tget_fmt. cbn [fsub fisnan FlOps]. apply sub_nan.
Qed.

(** ** Sigmoid cross entropy *)
(** What is asked of exp on non-positive numbers and of log1p on [0, 1]; any accuracy satisfies it. *)
Definition exp_sane (L : Libm) : Prop := forall d x, in_format d x -> ffin x = true -> fval x <= 0 -> in_format d (l_exp L d x) /\ ffin (l_exp L d x) = true /\ 0 <= fval (l_exp L d x) <= 1.
Definition log1p_sane (L : Libm) : Prop := forall d x, in_format d x -> ffin x = true -> 0 <= fval x <= 1 -> in_format d (l_log1p L d x) /\ ffin (l_log1p L d x) = true /\ 0 <= fval (l_log1p L d x) <= 1.
(** Adding at most 1 never overflows. *)
Lemma near_top d m t : fmt d m -> Rabs m < top d -> Rabs t <= 1 -> Rabs (rnd d (m + t)) < top d.
Proof.
  intros Fm Hm Ht. set (M := pred radix2 (fe d) (top d)).
  assert (FT : generic_format radix2 (fe d) (top d)) by (apply (fmt_bpow d); destruct d; cbn; lia).
  assert (FM : fmt d M) by (unfold fmt; apply generic_format_pred; [exact (fe_valid d)|exact FT]). assert (M1 : M < top d) by (apply pred_lt_id, Rgt_not_eq, bpow_gt_0).
  assert (M2 : bpow radix2 (femax d - 1) <= M) by (apply (pred_ge_gt radix2 (fe d)); [apply (fmt_bpow d); destruct d; cbn; lia|exact FT|apply bpow_lt; lia]).
  assert (M3 : Rabs m <= M) by (apply (pred_ge_gt radix2 (fe d)); [now apply generic_format_abs|exact FT|exact Hm]).
  assert (PM : 0 < M) by (pose proof (bpow_gt_0 radix2 (femax d - 1)); lra).
  assert (S : rnd d (M + 1) = M).
  { apply stag; [exact FM|]. rewrite Rabs_R1, (Rabs_pos_eq M) by lra. apply Rle_trans with (bpow radix2 (- fprec d - 2) * bpow radix2 (femax d - 1)).
    - rewrite <- bpow_plus. change 1 with (bpow radix2 0). apply bpow_le. destruct d; cbn; lia.
    - apply Rmult_le_compat_l; [apply bpow_ge_0|exact M2]. }
  rewrite rnd_abs. eapply Rle_lt_trans; [|exact M1]. rewrite <- S. apply rnd_le. eapply Rle_trans; [apply Rabs_triang|]. lra.
Qed.
Lemma add_fin_val d x y : ffin x = true -> ffin y = true -> Rabs (rnd d (fval x + fval y)) < top d -> ffin (add_ (fprec d) (femax d) x y) = true /\ fval (add_ (fprec d) (femax d) x y) = rnd d (fval x + fval y).
Proof.
  intros Fx Fy H. rewrite add_fin by assumption. set (b := if Req_bool _ _ then _ else _). destruct (rto_cases d b (fval x + fval y)) as [(_ & ->)|(H' & _)]; [|lra]. split; [apply fmk_fin|apply fmk_val].
Qed.
Lemma opp_fin x : ffin (opp_ x) = ffin x. Proof. now destruct x. Qed.
Lemma opp_val x : fval (opp_ x) = - fval x. Proof. destruct x; cbn; lra. Qed.
Lemma abs_fin x : ffin (abs_ x) = ffin x. Proof. now destruct x. Qed.
Lemma abs_val x : fval (abs_ x) = Rabs (fval x). Proof. destruct x; cbn; rewrite ?Rabs_R0; reflexivity. Qed.
Lemma max_val x y : ffin x = true -> ffin y = true -> ffin (max_ x y) = true /\ fval (max_ x y) = Rmax (fval x) (fval y).
Proof.
  intros Fx Fy. assert (isnan_ x = false) by now destruct x. assert (isnan_ y = false) by now destruct y. destruct (max_spec x y) as [(-> & H1)|(-> & H1)]; auto; apply le_fin in H1; auto; split; auto; [now rewrite Rmax_left|now rewrite Rmax_right].
Qed.
Section Bce.
  Context `{L : Libm}.
  Variables (HE : exp_sane L) (HL : log1p_sane L).
  Lemma softplus_fl d x : in_format d x -> ffin x = true -> let y := @softplus (FlOps L) d x in
    in_format d y /\ ffin y = true /\ 0 <= fval y /\ fval x <= fval y /\ (fval x <= 0 -> fval y <= 1).
  Proof.
    intros Ix Fx. cbn zeta. unfold softplus, logaddexp. rewrite fl0. cbn [fcast cast_ FlOps fsub fisnan fadd fmax flog1p fexp fneg fabs].
    assert (E0 : ffin (sub_ (fprec d) (femax d) x (Zr false)) = true /\ fval (sub_ (fprec d) (femax d) x (Zr false)) = fval x).
    { unfold sub_. cbn [opp_ negb]. destruct (fin_fmt d x Ix) as (X1 & X2). destruct (add_fin_val d x (Zr true) Fx eq_refl) as (A & B); cbn [fval] in *; rewrite Rplus_0_r, rnd_id in *; auto. }
    destruct E0 as (Fs & Vs). pose proof (add_format d x (opp_ (Zr false))) as Is. fold (sub_ (fprec d) (femax d) x (Zr false)) in Is. set (z := sub_ _ _ x _) in *. clearbody z.
    assert (isnan_ z = false) as -> by now destruct z.
    destruct (HE d (opp_ (abs_ z))) as (P1 & P2 & P3); [now apply opp_format, abs_format|now rewrite opp_fin, abs_fin|rewrite opp_val, abs_val; pose proof (Rabs_pos (fval z)); lra|].
    destruct (HL d _ P1 P2 P3) as (Q1 & Q2 & Q3). set (w := l_log1p L d _) in *. clearbody w.
    destruct (max_val x (Zr false) Fx eq_refl) as (M1 & M2). set (m := max_ x (Zr false)) in *. assert (Im : in_format d m) by (unfold m; destruct (max_spec x (Zr false)) as [(-> & _)|(-> & _)]; [now destruct x|reflexivity|exact Ix|exact I]). clearbody m. cbn [fval] in M2.
    destruct (fin_fmt d m Im) as (X1 & X2). destruct (add_fin_val d m w M1 Q2) as (A & B). { apply near_top; auto. rewrite Rabs_pos_eq; lra. }
    split; [apply add_format|]. split; [exact A|]. rewrite B. pose proof (Rmax_l (fval x) 0) as R1. pose proof (Rmax_r (fval x) 0) as R2.
    assert (G : fval m <= rnd d (fval m + fval w)) by (rewrite <- (rnd_id d (fval m) X1) at 1; apply rnd_le; lra).
    split; [lra|]. split; [lra|]. intros Hx. rewrite Rmax_right in M2 by exact Hx. rewrite M2, Rplus_0_l, (rnd_id d (fval w)); [lra|]. now apply fin_fmt.
  Qed.
  Lemma mul_between d x y a b : ffin x = true -> ffin y = true -> fmt d a -> fmt d b -> Rabs a < top d -> Rabs b < top d -> a <= fval x * fval y <= b ->
    let z := mul_ (fprec d) (femax d) x y in ffin z = true /\ a <= fval z <= b.
  Proof. intros Fx Fy Fa Fb Ta Tb H. cbn zeta. rewrite mul_fin by assumption. now apply rto_between. Qed.
  (** The loss of one logit x (dtype dx) and label l (dtype dl). *)
  Definition bce_f `{O : Ops} (dl dx : fdt) (l x : F) : F :=
    let D := promote dl dx in
    fsub D (fmul D (conv dl D (fneg l)) (conv dx D (log_sigmoid dx x))) (fmul D (conv dl D (fsub dl (fcast dl fone) l)) (conv dx D (log_sigmoid dx (fneg x)))).
  Lemma bce_fl dl dx l x : in_format dl l -> in_format dx x -> ffin x = true -> ffin l = true -> 0 <= fval l <= 1 ->
    let y := @bce_f (FlOps L) dl dx l x in ffin y = true /\ 0 <= fval y /\
    (fval l = 1 -> fval y = fval (@softplus (FlOps L) dx (opp_ x))) /\ (fval l = 0 -> fval y = fval (@softplus (FlOps L) dx x)).
  Proof.
    intros Il Ix Fx Fl Hl. cbn zeta. unfold bce_f, log_sigmoid. set (D := promote dl dx). cbn [fneg fsub fmul fcast FlOps].
    destruct (softplus_fl dx (opp_ x)) as (A1 & A2 & A3 & A4 & A5); [now apply opp_format|now rewrite opp_fin|]. rewrite opp_val in A4, A5.
    assert (Eoo : opp_ (opp_ x) = x) by (destruct x; cbn; rewrite ?negb_involutive, ?Ropp_involutive; reflexivity). rewrite Eoo.
    destruct (softplus_fl dx x Ix Fx) as (B1 & B2 & B3 & B4 & B5). set (p := @softplus (FlOps L) dx (opp_ x)) in *. set (q := @softplus (FlOps L) dx x) in *. change (@F (FlOps L)) with fl in p, q. clearbody p q.
    unfold D. rewrite !conv_up' by now apply opp_format. rewrite conv_up by now apply opp_format. rewrite conv_up by apply add_format. fold D.
    change (cast_ dl (@fone (FlOps L))) with (@fcast (FlOps L) dl fone). rewrite cast1.
    assert (Hm : let m := sub_ (fprec dl) (femax dl) (Nz 1) l in ffin m = true /\ 0 <= fval m <= 1 /\ (fval l = 1 -> fval m = 0) /\ (fval l = 0 -> fval m = 1)).
    { cbn zeta. unfold sub_. destruct (add_fin_val dl (Nz 1) (opp_ l)) as (M1 & M2); [reflexivity|now rewrite opp_fin| |].
      - apply near_top; cbn [fval]; [apply fmt_1|rewrite Rabs_R1; change 1 with (bpow radix2 0); apply bpow_lt; destruct dl; reflexivity|]. rewrite opp_val, Rabs_Ropp, Rabs_pos_eq; lra.
      - split; [exact M1|]. rewrite M2, opp_val. cbn [fval]. split.
        + split; [apply rnd_ge0; lra|]. rewrite <- (rnd_id dl 1 (fmt_1 dl)) at 2. apply rnd_le. lra.
        + split; intros ->; [replace (1 + - (1)) with 0 by lra; apply rnd_0|replace (1 + - 0) with 1 by lra; apply rnd_id, fmt_1]. }
    cbn zeta in Hm. set (m := sub_ _ _ (Nz 1) l) in *. clearbody m. destruct Hm as (M1 & M2 & M3 & M4).
    assert (Up : forall z, in_format dx z -> fmt D (fval z) /\ Rabs (fval z) < top D). { intros z Iz. apply fin_fmt. unfold D. rewrite promote_comm. now apply up_format. }
    destruct (Up p A1) as (P1 & P2). destruct (Up q B1) as (Q1 & Q2).
    assert (T0 : Rabs 0 < top D) by (rewrite Rabs_R0; apply top_pos).
    destruct (mul_between D (opp_ l) (opp_ p) 0 (fval p)) as (Y1 & Y2); auto; [now rewrite opp_fin|now rewrite opp_fin|apply fmt_0|rewrite !opp_val; nra|].
    destruct (mul_between D m (opp_ q) (- fval q) 0) as (Z1 & Z2); auto; [now rewrite opp_fin|now apply fmt_opp|apply fmt_0|now rewrite Rabs_Ropp|rewrite opp_val; nra|].
    assert (EY : fval l = 1 -> fval (mul_ (fprec D) (femax D) (opp_ l) (opp_ p)) = fval p).
    { intros El. destruct (mul_between D (opp_ l) (opp_ p) (fval p) (fval p)) as (_ & E); auto; try (now rewrite opp_fin); [rewrite !opp_val, El; lra|lra]. }
    assert (EY0 : fval l = 0 -> fval (mul_ (fprec D) (femax D) (opp_ l) (opp_ p)) = 0).
    { intros El. destruct (mul_between D (opp_ l) (opp_ p) 0 0) as (_ & E); auto; try (now rewrite opp_fin); try apply fmt_0; [rewrite !opp_val, El; lra|lra]. }
    assert (EZ : fval l = 0 -> fval (mul_ (fprec D) (femax D) m (opp_ q)) = - fval q).
    { intros El. destruct (mul_between D m (opp_ q) (- fval q) (- fval q)) as (_ & E); auto; try (now rewrite opp_fin); try (now apply fmt_opp); try (now rewrite Rabs_Ropp); [rewrite !opp_val, (M4 El); lra|lra]. }
    assert (EZ0 : fval l = 1 -> fval (mul_ (fprec D) (femax D) m (opp_ q)) = 0).
    { intros El. destruct (mul_between D m (opp_ q) 0 0) as (_ & E); auto; try (now rewrite opp_fin); try apply fmt_0; [rewrite !opp_val, (M3 El); lra|lra]. }
    pose proof (mul_format D (opp_ l) (opp_ p)) as IY. pose proof (mul_format D m (opp_ q)) as IZ.
    set (Y := mul_ _ _ (opp_ l) _) in *. set (Z := mul_ _ _ m _) in *. clearbody Y Z. unfold sub_.
    destruct (fin_fmt D Y IY) as (YF & YT). destruct (fin_fmt D (opp_ Z) (opp_format D Z IZ)) as (ZF & ZT).
    assert (Hov : Rabs (rnd D (fval Y + fval (opp_ Z))) < top D).
    { destruct (Rle_or_lt (fval x) 0) as [Hx|Hx]; [apply near_top; auto; rewrite opp_val, Rabs_pos_eq; lra|rewrite Rplus_comm; apply near_top; auto; rewrite Rabs_pos_eq; lra]. }
    destruct (add_fin_val D Y (opp_ Z) Y1 ltac:(now rewrite opp_fin) Hov) as (R1 & R2). split; [exact R1|]. rewrite R2, opp_val. split; [apply rnd_ge0; lra|]. split; intros El.
    - rewrite (EY El), (EZ0 El). replace (fval p + - 0) with (fval p) by lra. now apply rnd_id.
    - rewrite (EY0 El), (EZ El). replace (0 + - - fval q) with (fval q) by lra. now apply rnd_id.
  Qed.
End Bce.
Lemma bce_gen `{O : Ops} x l : twf x -> twf l -> assert_broadcastable (shp x) (shp l) = Ok tt ->
  exists r, sigmoid_binary_cross_entropy x l = Ok r /\ twf r /\ dt r = promote (dt l) (dt x) /\ shp r = shp l /\ forall o, valid (shp l) o -> tget r o = bce_f (dt l) (dt x) (tget l o) (bget x o).
Proof.
  intros Wx Wl Ha. unfold sigmoid_binary_cross_entropy. rewrite Ha. cbn [rbind]. apply assert_bshape in Ha. pose proof Ha as Hb. rewrite bshape_comm in Hb.
  destruct (bin_elem fmul (un (fun _ => fneg) l) (un log_sigmoid x) (shp l)) as (a & Ea & Da & Sa & Wa & Va); [now apply emap_wf|now apply emap_wf|exact Hb|]. rewrite Ea. cbn [rbind].
  destruct (bin_elem fmul (sl fsub fone l) (un log_sigmoid (un (fun _ => fneg) x)) (shp l)) as (b & Eb & Db & Sb & Wb & Vb); [now apply emap_wf|now apply emap_wf, emap_wf|exact Hb|]. rewrite Eb. cbn [rbind].
  destruct (bin_same_elem fsub a b Wa Wb) as (r & Er & Wr & Dr & Sr & Vr); [now rewrite Da, Db|now rewrite Sa, Sb|]. exists r. split; [exact Er|]. split; [exact Wr|]. split; [now rewrite Dr, Da|]. split; [now rewrite Sr|].
  intros o V. rewrite (Vr o) by now rewrite Sa. rewrite (Va o V), (Vb o V), Da. destruct (bshape_valid _ _ _ o Ha V) as (Vx & _).
  unfold bget. cbn [shp un sl emap]. rewrite bidx_same by exact V. rewrite !tget_un by (auto; now apply emap_wf). rewrite tget_sl by auto. reflexivity.
Qed.
(*@ C74_bce_ieee : IEEE arithmetic, any shapes and dtypes, exp and log1p of any accuracy that maps [-inf,0] and [0,1] into [0,1]: for finite logits and labels in [0,1] every element of sigmoid_binary_cross_entropy is finite (never NaN, never overflows even at the largest logit) and >= 0; for the hard labels 1 and 0 it is exactly softplus(-logit) and softplus(logit). *)
Lemma bce_ieee : forall `{L : Libm} (x l : tensor), exp_sane L -> log1p_sane L -> twf x -> twf l -> tfmt x -> tfmt l -> broadcasts_to (shp x) (shp l) ->
  exists r, sigmoid_binary_cross_entropy x l = Ok r /\ dt r = promote (dt l) (dt x) /\ shp r = shp l /\
    forall o, valid (shp l) o -> fisfinite (bget x o) = true -> fle fzero (tget l o) = true -> fle (tget l o) fone = true ->
      fisfinite (tget r o) = true /\ fle fzero (tget r o) = true /\
      (feqb (tget l o) fone = true -> feqb (tget r o) (softplus (dt x) (fneg (bget x o))) = true) /\
      (feqb (tget l o) fzero = true -> feqb (tget r o) (softplus (dt x) (bget x o)) = true).
Proof.
  intros L x l HE HL Wx Wl Fx Fl Ha. apply broadcasts_iff in Ha. destruct (bce_gen (O := FlOps L) x l Wx Wl Ha) as (r & Er & Wr & Dr & Sr & Hr).
  exists r. split; [exact Er|]. split; [exact Dr|]. split; [exact Sr|]. intros o V. rewrite (Hr o V), fl0, fl1. cbn [fisfinite fle feqb FlOps].
  assert (Ix : in_format (dt x) (bget x o)) by now apply tget_fmt. assert (Il : in_format (dt l) (tget l o)) by now apply tget_fmt.
  set (lo := tget l o) in *. set (xo := bget x o) in *. change (@F (FlOps L)) with fl in lo, xo. clearbody lo xo. intros Fxo H0 H1.
  assert (Flo : ffin lo = true) by (destruct lo as [| |[|]|]; try discriminate; reflexivity). apply le_fin in H0; auto. apply le_fin in H1; auto. cbn [fval] in H0, H1.
  destruct (bce_fl HE HL (dt l) (dt x) lo xo Il Ix Fxo Flo ltac:(lra)) as (R1 & R2 & R3 & R4). split; [exact R1|]. split; [apply le_fin; auto|].
  destruct (softplus_fl HE HL (dt x) xo Ix Fxo) as (_ & S1 & _). destruct (softplus_fl HE HL (dt x) (opp_ xo)) as (_ & S2 & _); [now apply opp_format|now rewrite opp_fin|].
  assert (EQ : forall a b, ffin a = true -> ffin b = true -> eq_ a b = true -> fval a = fval b). { clear. intros a b Fa Fb E. unfold eq_ in E. rewrite cmp_fin in E by assumption. revert E. case Rcompare_spec; intros; try discriminate. assumption. }
  split; intros E; apply EQ in E; auto; cbn [fval] in E; apply same_eq; repeat split; auto.
Qed.
(*@ C74_bce_infinite_logit : (finding) an infinite logit of the right sign, whose loss is 0, gives NaN: 0 * inf. *)
Lemma bce_inf : forall `{L : Libm} (x l : tensor) o, log1p_sane L -> (forall d, l_exp L d (If true) = Zr false) -> twf x -> twf l -> broadcasts_to (shp x) (shp l) -> valid (shp l) o ->
  (bget x o = If false /\ tget l o = Nz 1) \/ (bget x o = If true /\ tget l o = Zr false) ->
  exists r, sigmoid_binary_cross_entropy x l = Ok r /\ tget r o = Na.
Proof.
  intros L x l o HL HE Wx Wl Ha V H. apply broadcasts_iff in Ha. destruct (bce_gen (O := FlOps L) x l Wx Wl Ha) as (r & Er & Wr & Dr & Sr & Hr).
  exists r. split; [exact Er|]. rewrite (Hr o V).
  assert (Si : forall d, @softplus (FlOps L) d (If false) = If false).
  { intros d. unfold softplus, logaddexp. rewrite fl0. cbn [fcast cast_ FlOps fsub fisnan fadd fmax flog1p fexp fneg fabs]. cbn [sub_ opp_ negb add_ isnan_ max_ lt_ cmp_ abs_]. rewrite HE.
    destruct (HL d (Zr false) I eq_refl) as (Q1 & Q2 & Q3); [cbn; lra|]. change (max_ (If false) (Zr false)) with (If false). destruct (l_log1p L d (Zr false)); try discriminate; reflexivity. }
  assert (Ci : forall d D s, @conv (FlOps L) d D (If s) = If s) by (intros d D s; unfold conv; destruct (fdt_eqb d D); reflexivity).
  assert (Cz : forall d D s, @conv (FlOps L) d D (Zr s) = Zr s) by (intros d D s; unfold conv; destruct (fdt_eqb d D); reflexivity).
  unfold bce_f, log_sigmoid. set (D := promote _ _). destruct H as [(-> & ->)|(-> & ->)]; cbn [fneg FlOps opp_ negb].
  - rewrite Si. cbn [opp_ negb]. rewrite Ci. change (@fcast (FlOps L) (dt l) fone) with (@fcast (FlOps L) (dt l) (@fone (FlOps L))). rewrite cast1.
    assert (E : @fsub (FlOps L) (dt l) (Nz 1) (Nz 1) = Zr false).
    { cbn [fsub FlOps sub_ opp_ add_ fval fneg_]. replace (1 + - (1)) with 0 by lra. rewrite Req_bool_true by reflexivity. rewrite rto_id by (try apply fmt_0; rewrite Rabs_R0; apply top_pos). unfold fmk. rewrite Req_bool_true by reflexivity. now rewrite Rlt_bool_false by lra. }
    rewrite E, Cz. cbn [fmul FlOps mul_ fsub sub_ opp_ add_]. destruct (mul_ _ _ _ _); reflexivity.
  - rewrite Si. cbn [opp_ negb]. rewrite Ci, Cz. cbn [fmul FlOps mul_ fsub sub_ opp_ add_]. reflexivity.
Qed.
Lemma cr_exp : exp_sane cr_libm.
Proof.
  intros d x Ix Fx Hx. destruct x as [s|r| |]; try discriminate; cbn [l_exp cr_libm].
  - split; [|split; [reflexivity|cbn; lra]]. split; [lra|]. split; [apply fmt_1|]. rewrite Rabs_R1. change 1 with (bpow radix2 0). apply bpow_lt. destruct d; reflexivity.
  - cbn [fval] in Hx. split; [apply rto_format|]. apply rto_between; [apply fmt_0|apply fmt_1| |rewrite Rabs_R1; change 1 with (bpow radix2 0); apply bpow_lt; destruct d; reflexivity|rewrite Rabs_R0; apply top_pos].
    split; [left; apply exp_pos|]. rewrite <- exp_0. destruct (Req_dec r 0) as [->|]; [lra|left; apply exp_increasing; lra].
Qed.
Lemma cr_log1p : log1p_sane cr_libm.
Proof.
  intros d x Ix Fx Hx. destruct x as [s|r| |]; try discriminate; cbn [l_log1p cr_libm].
  - split; [exact I|split; [reflexivity|cbn; lra]].
  - cbn [fval] in Hx. rewrite Rlt_bool_false by lra. split; [apply rto_format|]. apply rto_between; [apply fmt_0|apply fmt_1| |rewrite Rabs_R1; change 1 with (bpow radix2 0); apply bpow_lt; destruct d; reflexivity|rewrite Rabs_R0; apply top_pos].
    split; [rewrite <- ln_1; destruct (Req_dec r 0) as [->|]; [rewrite Rplus_0_r; lra|left; apply ln_increasing; lra]|].
    destruct (Req_dec r 0) as [->|]; [rewrite Rplus_0_r, ln_1; lra|]. left. eapply Rlt_le_trans; [|apply Hx]. rewrite <- (ln_exp r) at 2. apply ln_increasing; [lra|]. apply exp_ineq1; lra.
Qed.
(*@ex C74_example *)
Lemma loss_ieee_example :
  let p := mkT F16 [3%nat] [Nz (-3); If true; Nz 65504] in let l := mkT F32 [3%nat] [Nz 1; Nz 1; Zr false] in
  (exists r h, l2_loss (O := FlOps cr_libm) p None = Ok r /\ huber_loss (O := FlOps cr_libm) p None (Nz 1) = Ok h /\
     tget (O := FlOps cr_libm) r [1%nat] = If false /\ tget (O := FlOps cr_libm) h [1%nat] = If false /\
     le_ (tget (O := FlOps cr_libm) h [0%nat]) (tget (O := FlOps cr_libm) h [2%nat]) = true) /\
  (exists b, sigmoid_binary_cross_entropy (O := FlOps cr_libm) p l = Ok b /\ ffin (tget (O := FlOps cr_libm) b [2%nat]) = true /\ le_ (Zr false) (tget (O := FlOps cr_libm) b [2%nat]) = true) /\
  (exists b, sigmoid_binary_cross_entropy (O := FlOps cr_libm) (mkT F16 [1%nat] [If false]) (mkT F16 [1%nat] [Nz 1]) = Ok b /\ tget (O := FlOps cr_libm) b [0%nat] = Na).
Proof.
  assert (F1 : in_format F16 (Nz (-3))) by (pose proof (Bint_val F16 (-3) ltac:(easy) ltac:(reflexivity)) as B; change (IZR (-3)) with (-3) in B; rewrite <- B; apply of_bits_format).
  assert (F2 : in_format F16 (Nz 65504)).
  { pose proof (Bint_val F16 2047 ltac:(easy) ltac:(reflexivity)) as B. assert (G : in_format F16 (Nz 2047)) by (rewrite <- B; apply of_bits_format). destruct G as (_ & G & _).
    split; [lra|]. split; [replace 65504 with (2047 * bpow radix2 5) by (cbn; lra); apply (mul_bpow F16); [exact G|lia]|]. rewrite Rabs_pos_eq by lra. change (top F16) with (bpow radix2 16). cbn. lra. }
  assert (F3 : forall d, in_format d (Nz 1)) by (intros d; rewrite <- (cast1 (L := cr_libm) d); apply cast_format).
  intros p l. assert (Wp : twf p) by reflexivity. assert (Wl : twf l) by reflexivity. assert (Tp : tfmt p) by (repeat constructor; auto; apply F1 || apply F2). assert (Tl : tfmt l) by (repeat constructor; auto; apply (F3 F32)).
  split; [|split].
  - destruct (loss_ieee (L := cr_libm) p None (Nz 1) [3%nat] Wp I Tp eq_refl) as (r & h & Er & Eh & _ & _ & _ & _ & H).
    + cbn [err_dt fcast FlOps fisfinite dt p]. rewrite (cast_id F16 (Nz 1) (F3 F16)). reflexivity.
    + rewrite fl0. cbn [err_dt fcast FlOps flt dt p]. rewrite (cast_id F16 (Nz 1) (F3 F16)). apply lt_fin; auto. cbn. lra.
    + exists r, h. split; [exact Er|]. split; [exact Eh|]. destruct (H [1%nat]) as (_ & _ & Hi & _); [cbn; lia|]. destruct (Hi true eq_refl) as (H1 & H2). split; [exact H1|]. split; [exact H2|].
      destruct (H [0%nat]) as (_ & _ & _ & _ & Hm); [cbn; lia|]. apply (Hm [2%nat]); [cbn; lia|]. cbn [fle fabs FlOps err_at tget p ravel shp dat nth]. apply le_fin; auto. cbn. rewrite (Rabs_left (-3)), (Rabs_pos_eq 65504) by lra. lra.
  - destruct (bce_ieee (L := cr_libm) p l cr_exp cr_log1p Wp Wl Tp Tl (bcast_ok [3%nat] [3%nat] eq_refl)) as (b & Eb & _ & _ & H). exists b. split; [exact Eb|].
    destruct (H [2%nat]) as (H1 & H2 & _); [cbn; lia|reflexivity| | |].
    + rewrite fl0. apply le_fin; auto. cbn. lra.
    + rewrite fl1. apply le_fin; auto. cbn. lra.
    + split; [exact H1|]. rewrite fl0 in H2. exact H2.
  - apply (bce_inf (L := cr_libm)); [exact cr_log1p|reflexivity|reflexivity|reflexivity|apply bcast_ok; reflexivity|cbn; lia|]. left. split; reflexivity.
Qed.
