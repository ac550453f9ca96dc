(** Measure-valued gradient estimators (C57). *)
From Verif Require Export M_estim P_utils P_loss TMat.
From Coq Require Import List Psatz Reals Qreals Lia.
Import ListNotations.
Open Scope R_scope.
(*@header
From Coq Require Import List.
Import ListNotations.
Open Scope R_scope.
*)

(** ** Specification *)
(** The vector (v 0, ..., v (D-1)) as an array. *)
Definition point (d : fdt) (D : nat) (v : nat -> R) : gt XR := mkT d [D] (map (fun i => Fin (v i)) (seq 0 D)).
(** v with coordinate k replaced by a. *)
Definition upd (v : nat -> R) (k : nat) (a : R) : nat -> R := fun i => if (i =? k)%nat then a else v i.
(** The draws of [draw] are the reals z, row-major over N x D. *)
Definition draws_are (draw : nat -> XR) (N D : nat) (z : nat -> nat -> R) : Prop :=
  forall n i, (n < N)%nat -> (i < D)%nat -> draw (n * D + i)%nat = Fin (z n i).
(** The n-th sample of the Gaussian: mean + scale * standard normal. *)
Definition gauss (mu ls : rvec) (z : nat -> nat -> R) (n : nat) : rvec := fun i => mu i + exp (ls i) * z n i.

(** An N x D array of finite values. *)
Definition is_rect (t : gt XR) (d : fdt) (N D : nat) (A : nat -> nat -> R) : Prop :=
  dt t = d /\ shp t = [N; D] /\ twf t /\ forall (P : Platform) n i, (n < N)%nat -> (i < D)%nat -> @tget (XROps P) t [n; i] = Fin (A n i).

Section X.
  Context {P : Platform}.
  Notation xr := (XROps P).
  Lemma row_shape D N : bshape [D] [N; D] = Some [N; D].
  Proof. cbn. rewrite bdim_same. unfold bdim. destruct N as [|[|N]]; reflexivity. Qed.
  Lemma row_shape_r D N : bshape [N; D] [D] = Some [N; D].
  Proof. rewrite bshape_comm. apply row_shape. Qed.
  Lemma bidx_row D n i : (i < D)%nat -> bidx [D] [n; i] = [i].
  Proof. intros H. unfold bidx. cbn. destruct (Nat.eqb_spec D 1); [f_equal; lia|reflexivity]. Qed.
  Lemma bidx_rect N D n i : (n < N)%nat -> (i < D)%nat -> bidx [N; D] [n; i] = [n; i].
  Proof. intros. apply bidx_same. cbn. auto. Qed.
  Lemma tget_any (Q : Platform) (t : gt XR) o : @tget (XROps Q) t o = @tget xr t o.
  Proof. reflexivity. Qed.
  Lemma rect_intro (t : gt XR) d N D A : dt t = d -> shp t = [N; D] -> twf t -> (forall n i, (n < N)%nat -> (i < D)%nat -> @tget xr t [n; i] = Fin (A n i)) -> is_rect t d N D A.
  Proof. intros. repeat split; auto. Qed.
  Lemma rect_get t d N D A n i : is_rect t d N D A -> (n < N)%nat -> (i < D)%nat -> @tget xr t [n; i] = Fin (A n i).
  Proof. intros (_ & _ & _ & H). apply H. Qed.
  Lemma is_vec_parts t d n v : is_vec t d n v -> dt t = d /\ shp t = [n] /\ twf t.
  Proof. intros (H1 & H2 & H3 & _). auto. Qed.
  Lemma bin_vr op (v t : gt XR) d d' N D x A g : is_vec v d D x -> is_rect t d' N D A -> (forall dd a b, op dd (Fin a) (Fin b) = Fin (g a b)) ->
    exists r, @bin xr op v t = Ok r /\ is_rect r (promote d d') N D (fun n i => g (x i) (A n i)).
  Proof.
    intros Hv Ht Hop. destruct (is_vec_parts _ _ _ _ Hv) as (Dv & Sv & Wv). destruct Ht as (Dt & St & Wt & Gt).
    destruct (bin_x op v t [N; D] Wv Wt) as (r & Er & (Dr & Sr & Wr) & Hr); [rewrite Sv, St; apply row_shape|]. exists r. split; [exact Er|]. nx. apply rect_intro; auto; [now rewrite Dr, ?Dv, ?Dt, ?Du|].
    intros n i Hn Hi. rewrite Hr by (cbn; auto). unfold bget. nx. rewrite Sv, St, bidx_row, bidx_rect by assumption. rewrite (is_vec_tget _ _ _ _ Hv i Hi), (Gt P n i Hn Hi). apply Hop.
  Qed.
  Lemma bin_rv op (t v : gt XR) d d' N D x A g : is_rect t d' N D A -> is_vec v d D x -> (forall dd a b, op dd (Fin a) (Fin b) = Fin (g a b)) ->
    exists r, @bin xr op t v = Ok r /\ is_rect r (promote d' d) N D (fun n i => g (A n i) (x i)).
  Proof.
    intros Ht Hv Hop. destruct (is_vec_parts _ _ _ _ Hv) as (Dv & Sv & Wv). destruct Ht as (Dt & St & Wt & Gt).
    destruct (bin_x op t v [N; D] Wt Wv) as (r & Er & (Dr & Sr & Wr) & Hr); [rewrite Sv, St; apply row_shape_r|]. exists r. split; [exact Er|]. nx. apply rect_intro; auto; [now rewrite Dr, ?Dv, ?Dt, ?Du|].
    intros n i Hn Hi. rewrite Hr by (cbn; auto). unfold bget. nx. rewrite Sv, St, bidx_row, bidx_rect by assumption. rewrite (is_vec_tget _ _ _ _ Hv i Hi), (Gt P n i Hn Hi). apply Hop.
  Qed.
  Lemma bin_rr op (t u : gt XR) d d' N D A B g : is_rect t d N D A -> is_rect u d' N D B -> (forall dd a b, op dd (Fin a) (Fin b) = Fin (g a b)) ->
    exists r, @bin xr op t u = Ok r /\ is_rect r (promote d d') N D (fun n i => g (A n i) (B n i)).
  Proof.
    intros (Dt & St & Wt & Gt) (Du & Su & Wu & Gu) Hop.
    destruct (bin_x op t u [N; D] Wt Wu) as (r & Er & (Dr & Sr & Wr) & Hr); [rewrite Su, St; apply bshape_same|]. exists r. split; [exact Er|]. nx. apply rect_intro; auto; [now rewrite Dr, ?Dv, ?Dt, ?Du|].
    intros n i Hn Hi. rewrite Hr by (cbn; auto). unfold bget. nx. rewrite Su, St, bidx_rect by assumption. rewrite (Gt P n i Hn Hi), (Gu P n i Hn Hi). apply Hop.
  Qed.
  Lemma drawn_rect (draw : nat -> XR) d N D z : draws_are draw N D z -> is_rect (mkT d [N; D] (map draw (seq 0 (prodn [N; D])))) d N D z.
  Proof.
    intros H. apply rect_intro; auto.
    - unfold twf. cbn [dat shp]. now rewrite map_length, seq_length.
    - intros n i Hn Hi. unfold tget. cbn [shp dat]. rewrite ravel2. assert (Hlt : (n * D + i < prodn [N; D])%nat) by (cbn; nia). apply nth_error_nth. rewrite nth_error_map, (nth_error_nth' _ 0%nat) by (rewrite seq_length; exact Hlt). rewrite seq_nth by exact Hlt. cbn [option_map]. nx. f_equal. apply H; assumption.
  Qed.
  Lemma rect_ext t d N D A B : (forall n i, (n < N)%nat -> (i < D)%nat -> A n i = B n i) -> is_rect t d N D A -> is_rect t d N D B.
  Proof. intros E (H1 & H2 & H3 & H4). repeat split; auto. intros Q n i Hn Hi. rewrite H4 by assumption. now rewrite E. Qed.
  Lemma exp_vec (t : gt XR) d D v : is_vec t d D v -> is_vec (@un xr (@fexp xr) t) d D (fun i => exp (v i)).
  Proof.
    intros (D0 & S & W & H). unfold is_vec, un, emap. cbn [dt shp dat]. repeat split; auto.
    - unfold twf in *. cbn [dat shp]. now rewrite map_length.
    - intros i Hi. nx. rewrite nth_error_map, (H i Hi). reflexivity.
  Qed.
  Lemma promote_assoc a b c : promote (promote a b) c = promote a (promote b c).
  Proof. destruct a, b, c; reflexivity. Qed.
  Lemma promote_comm a b : promote a b = promote b a.
  Proof. destruct a, b; reflexivity. Qed.
  Lemma promote_idem a b : promote (promote a b) b = promote a b.
  Proof. destruct a, b; reflexivity. Qed.
  Lemma promote_idem' a b : promote a (promote a b) = promote a b.
  Proof. destruct a, b; reflexivity. Qed.

  Lemma sample_rect (loc ls : gt XR) d D mu s dist seed N z : is_vec loc d D mu -> is_vec ls d D s -> @multi_normal xr loc ls = Ok dist -> draws_are (p_knormal P seed (@defdt xr) [N; D]) N D z ->
    nd_mean dist = loc /\ nd_log_scale dist = ls /\
    exists r, @nd_sample xr dist [N] seed = Ok r /\ is_rect r (promote (@defdt xr) d) N D (gauss mu s z).
  Proof.
    intros Hl Hs Ed Hz. unfold multi_normal in Ed. destruct (is_vec_parts _ _ _ _ Hl) as (Dl & Sl & Wl). destruct (is_vec_parts _ _ _ _ (exp_vec _ _ _ _ Hs)) as (De & Se & We).
    nx. rewrite Sl, Se, bshape_same in Ed. injection Ed as <-. split; [reflexivity|]. split; [reflexivity|]. unfold nd_sample. cbn [nd_shape nd_scale nd_mean app].
    destruct (bin_rv (@fmul xr) _ (@un xr (@fexp xr) ls) d (@defdt xr) N D (fun i => exp (s i)) z Rmult (drawn_rect (p_knormal P seed (@defdt xr) [N; D]) (@defdt xr) N D z Hz) (exp_vec _ _ _ _ Hs)) as (a & Ea & Ha); [reflexivity|].
    destruct (bin_rv (@fadd xr) a loc d _ N D mu _ Rplus Ha Hl) as (r & Er & Hr); [reflexivity|]. exists r. split; [etransitivity; [exact (f_equal (fun x => rbind x (fun a => @bin xr (@fadd xr) a loc)) Ea)|exact Er]|]. rewrite promote_idem in Hr. eapply rect_ext; [|exact Hr]. intros n i _ _. unfold gauss. cbv beta. ring.
  Qed.
  (** Replacing the diagonals of the tiled samples and mapping the function over the columns. *)
  Lemma replaced_columns f (samples diag : gt XR) d N D X A : is_rect samples d N D X -> is_rect diag d N D A ->
    exists base r, @tile_second_to_last_dim xr samples = Ok base /\ @set_diags xr base diag = Ok r /\ shp (@vmap_columns xr f r) = [N; D] /\ dt (@vmap_columns xr f r) = d /\
    forall n k, (n < N)%nat -> (k < D)%nat -> @tget xr (@vmap_columns xr f r) [n; k] = f (point d D (upd (X n) k (A n k))).
  Proof.
    intros (Ds & Ss & Ws & Gs) (Dd & Sd & Wd & Gd).
    destruct (tile_correct samples [N] D Ws Ss) as (base & Eb & Db & Sb & Wb & Hb). exists base.
    destruct (@set_diags_matrix xr base diag N D Wb Wd Sb Sd) as (r & Er & Dr & Sr & Wr & Hr); [transitivity d; [exact Dd|symmetry; etransitivity; [exact Db|exact Ds]]|]. exists r. split; [exact Eb|]. split; [exact Er|].
    assert (Edt : dt r = d) by (etransitivity; [exact Dr|]; etransitivity; [exact Db|exact Ds]).
    assert (ESr : shp r = [N; D; D]) by exact Sr.
    unfold vmap_columns. nx. rewrite ESr, Edt. cbn [nth]. split; [reflexivity|]. split; [reflexivity|]. intros n k Hn Hk. etransitivity; [apply (@tget_tab xr); cbn; auto|]. cbn [nth]. f_equal. unfold tab, point. f_equal. rewrite indices1, map_map. apply map_ext_in. intros i Hi. apply in_seq in Hi. cbn [hd].
    etransitivity; [apply Hr; lia|]. unfold upd. destruct (Nat.eqb_spec i k) as [->|].
    - now rewrite (Gd P n k Hn Hk).
    - etransitivity; [exact (Hb [n] i k (conj Hn I) ltac:(lia) Hk)|]. cbn [app]. apply Gs; lia.
  Qed.
  (** The common end of the two estimators. *)
  Lemma mv_tail f (smp pd nd c std : gt XR) d d' N D X A B e : is_rect smp d N D X -> is_rect pd d N D A -> is_rect nd d N D B -> is_vec c d' D e -> promote d d' = d -> shp std = [D] ->
    exists g, (let* base_dist_samples := @tile_second_to_last_dim xr smp in
    let* positive := @set_diags xr base_dist_samples pd in
    let* negative := @set_diags xr base_dist_samples nd in
    let* diff := @bin xr (@fsub xr) (@vmap_columns xr f positive) (@vmap_columns xr f negative) in
    let* grads := @bin xr (@fdiv xr) diff c in
    if shape_eqb (shp grads) (N :: shp std) then Ok grads else Err EAssert) = Ok g /\ dt g = d /\ shp g = [N; D] /\ twf g /\ forall n k, (n < N)%nat -> (k < D)%nat -> @tget xr g [n; k] = xdiv (xsub (f (point d D (upd (X n) k (A n k)))) (f (point d D (upd (X n) k (B n k))))) (Fin (e k)).
  Proof.
    intros Hsmp Hpd Hnd Vc Edd Sstd.
    destruct (replaced_columns f smp pd d N D _ _ Hsmp Hpd) as (base & rp & Eb & Erp & Sp & Dp & Hp). destruct (replaced_columns f smp nd d N D _ _ Hsmp Hnd) as (base' & rn & Eb' & Ern & Sn & Dn & Hn).
    assert (base' = base) by congruence. subst base'. rewrite Eb. cbn [rbind]. rewrite Erp, Ern. cbn [rbind]. destruct (is_vec_parts _ _ _ _ Vc) as (Dc & Sc & Wc).
    assert (Wp : twf (@vmap_columns xr f rp)) by apply tab_wf. assert (Wn : twf (@vmap_columns xr f rn)) by apply tab_wf.
    destruct (bin_x (@fsub xr) (@vmap_columns xr f rp) (@vmap_columns xr f rn) [N; D] Wp Wn) as (df & Edf & (Ddf & Sdf & Wdf) & Vdf); [nx; rewrite Sp, Sn; apply bshape_same|]. rewrite Edf. cbn [rbind].
    destruct (bin_x (@fdiv xr) df c [N; D] Wdf Wc) as (g & Eg & (Dg & Sg & Wg) & Vg); [nx; rewrite Sdf, Sc; apply row_shape_r|]. rewrite Eg. cbn [rbind].
    nx. rewrite Sg, Sstd, (proj2 (shape_eqb_eq _ _) eq_refl). exists g. split; [reflexivity|].
    split; [rewrite Dg, Ddf, Dp, Dn, Dc, !promote_same; exact Edd|]. split; [exact Sg|]. split; [exact Wg|].
    intros n k Hn' Hk'. rewrite Vg by (cbn; auto). unfold bget. nx. rewrite Sdf, Sc, bidx_rect, bidx_row by assumption. rewrite Vdf by (cbn; auto). unfold bget. nx. rewrite Sp, Sn, bidx_rect by assumption. rewrite Hp, Hn by assumption. rewrite (is_vec_tget _ _ _ _ Vc k Hk'). reflexivity.
  Qed.
End X.

(*@ C57_mean : measure_valued_estimation_mean, for every function f, number of samples N, dimension D, and all draws: entry [n, k] is (f(x_n with coordinate k replaced by mu_k + sigma_k w) - f(x_n with coordinate k replaced by mu_k - sigma_k w')) / (sqrt(2 pi) sigma_k), where x_n is the n-th Gaussian sample, w the [n, k] Weibull draw and w' the same draw with coupling and an independent one (other key) without. *)
Lemma mv_mean : forall `{P : Platform} (f : gt XR -> XR) (loc ls : gt XR) (d : fdt) (D N : nat) (mu s : rvec) (dist : normal_dist) (rng pos neg : p_key P) (coupling : bool) (z w w' : nat -> nat -> R),
  is_vec loc d D mu -> is_vec ls d D s -> @multi_normal (XROps P) loc ls = Ok dist -> p_ksplit P rng 2 = [pos; neg] ->
  draws_are (p_knormal P rng defdt [N; D]) N D z -> draws_are (p_kdraw P LWeibull pos [N; D]) N D w -> draws_are (p_kdraw P LWeibull (if coupling then pos else neg) [N; D]) N D w' ->
  let D1 := promote defdt d in
  exists g, @measure_valued_estimation_mean (XROps P) f dist rng N coupling = Ok g /\ dt g = D1 /\ shp g = [N; D] /\ twf g /\
  forall n k, (n < N)%nat -> (k < D)%nat ->
    @tget (XROps P) g [n; k] = xdiv (xsub (f (point D1 D (upd (gauss mu s z n) k (mu k + exp (s k) * w n k)))) (f (point D1 D (upd (gauss mu s z n) k (mu k - exp (s k) * w' n k)))))
                                     (Fin (sqrt (2 * PI) * exp (s k))).
Proof.
  intros P f loc ls d D N mu s dist rng pos neg coupling z w w' Hl Hs Ed Hk Hz Hw Hw' D1.
  destruct (sample_rect loc ls d D mu s dist rng N z Hl Hs Ed Hz) as (Em & El & smp & Esmp & Hsmp). unfold measure_valued_estimation_mean. rewrite Em, El, Esmp. cbn [rbind]. unfold split2. cbn [ksplit XROps]. rewrite Hk. cbn [rbind].
  assert (Ss : shp smp = [N; D]) by apply Hsmp. nx. rewrite Ss. pose proof (@exp_vec P ls d D s Hs) as He.
  pose proof (drawn_rect (p_kdraw P LWeibull pos [N; D]) (@defdt (XROps P)) N D w Hw : is_rect (@draws (XROps P) LWeibull pos [N; D]) _ _ _ _) as Rw.
  assert (Rw' : is_rect (if coupling then @draws (XROps P) LWeibull pos [N; D] else @draws (XROps P) LWeibull neg [N; D]) (@defdt (XROps P)) N D w').
  { pose proof (drawn_rect (p_kdraw P LWeibull (if coupling then pos else neg) [N; D]) (@defdt (XROps P)) N D w' Hw') as R. destruct coupling; exact R. }
  destruct (bin_vr (@fmul (XROps P)) _ _ d (@defdt (XROps P)) N D _ w Rmult He Rw) as (sp & Esp & Hsp); [reflexivity|]. rewrite Esp. cbn [rbind].
  destruct (bin_vr (@fadd (XROps P)) loc sp d _ N D mu _ Rplus Hl Hsp) as (pd & Epd & Hpd); [reflexivity|]. rewrite Epd. cbn [rbind].
  destruct (bin_vr (@fmul (XROps P)) _ _ d (@defdt (XROps P)) N D _ w' Rmult He Rw') as (sn & Esn & Hsn); [reflexivity|]. nx. rewrite Esn. cbn [rbind].
  destruct (bin_vr (@fsub (XROps P)) loc sn d _ N D mu _ Rminus Hl Hsn) as (nd & End & Hnd); [reflexivity|]. rewrite End. cbn [rbind].
  rewrite promote_idem' in Hpd, Hnd. rewrite (promote_comm d) in Hpd, Hnd. fold D1 in Hpd, Hnd, Hsmp.
  assert (Hc : exists c, @bin (XROps P) (@fmul (XROps P)) (@scalar (XROps P) (@defdt (XROps P)) (@fcast (XROps P) (@defdt (XROps P)) (@fsqrt (XROps P) F64 (@fmul (XROps P) F64 (@fofZ (XROps P) 2) (@fpi (XROps P)))))) (@un (XROps P) (@fexp (XROps P)) ls) = Ok c /\ is_vec c D1 D (fun i => sqrt (2 * PI) * exp (s i))).
  { assert (Esc : @fcast (XROps P) (@defdt (XROps P)) (@fsqrt (XROps P) F64 (@fmul (XROps P) F64 (@fofZ (XROps P) 2) (@fpi (XROps P)))) = Fin (sqrt (2 * PI))).
    { unfold fofZ. cbn [fcast fsqrt fmul flit fpi XROps]. rewrite Q2R_Z, xmul_fin. apply xsqrt_fin. pose proof PI_RGT_0. lra. }
    rewrite Esc. destruct (is_vec_parts _ _ _ _ He) as (De & Se & We).
    destruct (bin_x (@fmul (XROps P)) (@scalar (XROps P) (@defdt (XROps P)) (Fin (sqrt (2 * PI)))) (@un (XROps P) (@fexp (XROps P)) ls) [D]) as (c & Ec & (Dc & Sc & Wc) & Vc); [reflexivity|exact We|cbn [scalar shp]; nx; rewrite Se; apply bshape_nil_l|].
    exists c. split; [exact Ec|]. apply (@vec_intro P); auto; [etransitivity; [exact Dc|]; cbn [scalar dt]; nx; now rewrite De|].
    intros i Hi. rewrite Vc by (cbn; auto). unfold bget. cbn [scalar shp]. nx. rewrite Se, bidx_nil, bidx_same by (cbn; auto). rewrite (is_vec_tget _ _ _ _ He i Hi). reflexivity. }
  destruct Hc as (c & Ec & Vc). nx. rewrite Ec. cbn [rbind].
  destruct (mv_tail f smp pd nd c (@un (XROps P) (@fexp (XROps P)) ls) D1 D1 N D _ _ _ _ Hsmp Hpd Hnd Vc (promote_same _) (proj1 (proj2 (is_vec_parts _ _ _ _ He)))) as (g & Eg & Dg & Sg & Wg & Hg).
  exists g. split; [exact Eg|]. auto.
Qed.

(*@ C57_std : measure_valued_estimation_std: entry [n, k] is (f(x_n with coordinate k replaced by mu_k + sigma_k m) - f(x_n with coordinate k replaced by mu_k + sigma_k v)) / sigma_k, where m is the [n, k] double-sided Maxwell draw and v is u * m for a uniform draw u with coupling, and a standard normal draw of the other key without. *)
Lemma mv_std : forall `{P : Platform} (f : gt XR -> XR) (loc ls : gt XR) (d : fdt) (D N : nat) (mu s : rvec) (dist : normal_dist) (rng pos neg : p_key P) (coupling : bool) (z m u z' : nat -> nat -> R),
  is_vec loc d D mu -> is_vec ls d D s -> @multi_normal (XROps P) loc ls = Ok dist -> p_ksplit P rng 2 = [pos; neg] ->
  draws_are (p_knormal P rng defdt [N; D]) N D z -> draws_are (p_kdraw P LMaxwell pos [N; D]) N D m ->
  (if coupling then draws_are (p_kdraw P LUniform neg [N; D]) N D u else draws_are (p_knormal P neg defdt [N; D]) N D z') ->
  let D1 := promote defdt d in
  exists g, @measure_valued_estimation_std (XROps P) f dist rng N coupling = Ok g /\ dt g = D1 /\ shp g = [N; D] /\ twf g /\
  forall n k, (n < N)%nat -> (k < D)%nat ->
    @tget (XROps P) g [n; k] = xdiv (xsub (f (point D1 D (upd (gauss mu s z n) k (mu k + exp (s k) * m n k))))
                                          (f (point D1 D (upd (gauss mu s z n) k (mu k + exp (s k) * (if coupling then u n k * m n k else z' n k))))))
                                     (Fin (exp (s k))).
Proof.
  intros P f loc ls d D N mu s dist rng pos neg coupling z m u z' Hl Hs Ed Hk Hz Hm Hv D1.
  destruct (sample_rect loc ls d D mu s dist rng N z Hl Hs Ed Hz) as (Em & El & smp & Esmp & Hsmp). unfold measure_valued_estimation_std. rewrite Em, El, Esmp. cbn [rbind]. unfold split2. cbn [ksplit XROps]. rewrite Hk. cbn [rbind].
  fold D1 in Hsmp.
  assert (Ss : shp smp = [N; D]) by apply Hsmp. nx. rewrite Ss. pose proof (@exp_vec P ls d D s Hs) as He.
  pose proof (drawn_rect (p_kdraw P LMaxwell pos [N; D]) (@defdt (XROps P)) N D m Hm : is_rect (@draws (XROps P) LMaxwell pos [N; D]) _ _ _ _) as Rm.
  assert (Rv : exists v, (if coupling then @bin (XROps P) (@fmul (XROps P)) (@draws (XROps P) LUniform neg [N; D]) (@draws (XROps P) LMaxwell pos [N; D]) else Ok (@normals (XROps P) neg [N; D])) = Ok v /\ is_rect v (@defdt (XROps P)) N D (fun n k => if coupling then u n k * m n k else z' n k)).
  { destruct coupling.
    - pose proof (drawn_rect (p_kdraw P LUniform neg [N; D]) (@defdt (XROps P)) N D u Hv : is_rect (@draws (XROps P) LUniform neg [N; D]) _ _ _ _) as Ru.
      destruct (bin_rr (@fmul (XROps P)) _ _ _ _ N D _ _ Rmult Ru Rm) as (v & Ev & Hv'); [reflexivity|]. rewrite promote_same in Hv'. eauto.
    - exists (@normals (XROps P) neg [N; D]). split; [reflexivity|]. exact (drawn_rect _ (@defdt (XROps P)) N D z' Hv). }
  destruct Rv as (v & Ev & Rv). nx. rewrite Ev. cbn [rbind].
  destruct (bin_vr (@fmul (XROps P)) _ _ d (@defdt (XROps P)) N D _ m Rmult He Rm) as (sp & Esp & Hsp); [reflexivity|]. nx. rewrite Esp. cbn [rbind].
  destruct (bin_vr (@fadd (XROps P)) loc sp d _ N D mu _ Rplus Hl Hsp) as (pd & Epd & Hpd); [reflexivity|]. rewrite Epd. cbn [rbind].
  destruct (bin_vr (@fmul (XROps P)) _ _ d (@defdt (XROps P)) N D _ _ Rmult He Rv) as (sn & Esn & Hsn); [reflexivity|]. nx. rewrite Esn. cbn [rbind].
  destruct (bin_vr (@fadd (XROps P)) loc sn d _ N D mu _ Rplus Hl Hsn) as (nd & End & Hnd); [reflexivity|]. rewrite End. cbn [rbind].
  rewrite promote_idem' in Hpd, Hnd. rewrite (promote_comm d) in Hpd, Hnd. fold D1 in Hpd, Hnd.
  destruct (mv_tail f smp pd nd (@un (XROps P) (@fexp (XROps P)) ls) (@un (XROps P) (@fexp (XROps P)) ls) D1 d N D _ _ _ _ Hsmp Hpd Hnd He (promote_idem _ _) (proj1 (proj2 (is_vec_parts _ _ _ _ He)))) as (g & Eg & Dg & Sg & Wg & Hg).
  exists g. split; [exact Eg|]. auto.
Qed.

(** What the estimators use of the user's function: its value at vectors. *)
Definition computes {P : Platform} (f : gt dual -> dual) (d : fdt) (D : nat) (phi : rvec -> R) : Prop := forall v, valf f (point d D v) = Fin (phi v).

Lemma exp_nz x : exp x <> 0.
Proof. pose proof (exp_pos x). lra. Qed.
Lemma sqrt2pi : sqrt (2 * PI) <> 0.
Proof. pose proof PI_RGT_0. assert (0 < sqrt (2 * PI)) by (apply sqrt_lt_R0; lra). lra. Qed.

(*@ C57_jacobians : measure_valued_jacobians returns the estimate for the mean and, for the log-scale parameter, sigma_k times the estimate for the scale, that is exactly the difference of the two function values; each is an N x D array, all coordinates other than k are those of the n-th sample and shared by both evaluations. *)
Lemma mv_jacobians : forall `{P : Platform} (f : gt dual -> dual) (phi : rvec -> R) (loc ls : gt XR) (d : fdt) (D N : nat) (mu s : rvec) (rng pos neg : p_key P) (coupling : bool) (z w w' m u z' : nat -> nat -> R),
  let D1 := promote (@defdt (XROps P)) d in
  computes f D1 D phi -> is_vec loc d D mu -> is_vec ls d D s -> p_ksplit P rng 2 = [pos; neg] ->
  draws_are (p_knormal P rng (@defdt (XROps P)) [N; D]) N D z -> draws_are (p_kdraw P LWeibull pos [N; D]) N D w -> draws_are (p_kdraw P LWeibull (if coupling then pos else neg) [N; D]) N D w' ->
  draws_are (p_kdraw P LMaxwell pos [N; D]) N D m ->
  (if coupling then draws_are (p_kdraw P LUniform neg [N; D]) N D u else draws_are (p_knormal P neg (@defdt (XROps P)) [N; D]) N D z') ->
  exists gm gs, measure_valued_jacobians coupling f [loc; ls] BNormal rng N = Ok [gm; gs] /\
    is_rect gm D1 N D (fun n k => (phi (upd (gauss mu s z n) k (mu k + exp (s k) * w n k)) - phi (upd (gauss mu s z n) k (mu k - exp (s k) * w' n k))) / (sqrt (2 * PI) * exp (s k))) /\
    is_rect gs D1 N D (fun n k => phi (upd (gauss mu s z n) k (mu k + exp (s k) * m n k)) - phi (upd (gauss mu s z n) k (mu k + exp (s k) * (if coupling then u n k * m n k else z' n k)))).
Proof.
  intros P f phi loc ls d D N mu s rng pos neg coupling z w w' m u z' D1 Hf Hl Hs Hk Hz Hw Hw' Hm Hv. unfold measure_valued_jacobians.
  assert (Hd : exists dist, @multi_normal (XROps P) loc ls = Ok dist).
  { unfold multi_normal. destruct (is_vec_parts _ _ _ _ Hl) as (_ & Sl & _). destruct (is_vec_parts _ _ _ _ (@exp_vec P ls d D s Hs)) as (_ & Se & _). nx. rewrite Sl, Se, bshape_same. eauto. }
  destruct Hd as (dist & Ed). rewrite Ed. cbn [rbind].
  destruct (mv_mean (valf f) loc ls d D N mu s dist rng pos neg coupling z w w' Hl Hs Ed Hk Hz Hw Hw') as (gm & Egm & Dgm & Sgm & Wgm & Hgm).
  destruct (mv_std (valf f) loc ls d D N mu s dist rng pos neg coupling z m u z' Hl Hs Ed Hk Hz Hm Hv) as (gs & Egs & Dgs & Sgs & Wgs & Hgs).
  nx. rewrite Egm. cbn [rbind]. rewrite Egs. cbn [rbind].
  fold D1 in Hgs, Hgm, Dgs, Dgm.
  assert (Rs : is_rect gs D1 N D (fun n k => (phi (upd (gauss mu s z n) k (mu k + exp (s k) * m n k)) - phi (upd (gauss mu s z n) k (mu k + exp (s k) * (if coupling then u n k * m n k else z' n k)))) / exp (s k))).
  { apply (@rect_intro P); auto. intros n k Hn Hk'. rewrite Hgs by assumption. rewrite !Hf, xsub_fin, xdiv_fin; [reflexivity|apply exp_nz]. }
  destruct (bin_vr (@fmul (XROps P)) _ gs d D1 N D _ _ Rmult (@exp_vec P ls d D s Hs) Rs) as (gs' & Egs' & Rs'); [reflexivity|]. nx. rewrite Egs'. cbn [rbind].
  exists gm, gs'. split; [reflexivity|]. split.
  - apply (@rect_intro P); auto. intros n k Hn Hk'. rewrite Hgm by assumption. rewrite !Hf, xsub_fin, xdiv_fin; [reflexivity|]. intro E. apply Rmult_integral in E. pose proof (exp_nz (s k)). pose proof sqrt2pi. tauto.
  - assert (ED : promote d D1 = D1) by (unfold D1; destruct d, (@defdt (XROps P)); reflexivity). rewrite ED in Rs'. eapply rect_ext; [|exact Rs']. intros n k _ _. cbv beta. field. apply exp_nz.
Qed.

(*@ C57_constant : A constant function gives exactly zero gradients, with or without coupling, whatever is drawn. *)
Lemma mv_constant : forall `{P : Platform} (f : gt dual -> dual) (c : R) (loc ls : gt XR) (d : fdt) (D N : nat) (mu s : rvec) (rng pos neg : p_key P) (coupling : bool) (z w w' m u z' : nat -> nat -> R),
  let D1 := promote (@defdt (XROps P)) d in
  computes f D1 D (fun _ => c) -> is_vec loc d D mu -> is_vec ls d D s -> p_ksplit P rng 2 = [pos; neg] ->
  draws_are (p_knormal P rng (@defdt (XROps P)) [N; D]) N D z -> draws_are (p_kdraw P LWeibull pos [N; D]) N D w -> draws_are (p_kdraw P LWeibull (if coupling then pos else neg) [N; D]) N D w' ->
  draws_are (p_kdraw P LMaxwell pos [N; D]) N D m ->
  (if coupling then draws_are (p_kdraw P LUniform neg [N; D]) N D u else draws_are (p_knormal P neg (@defdt (XROps P)) [N; D]) N D z') ->
  exists gm gs, measure_valued_jacobians coupling f [loc; ls] BNormal rng N = Ok [gm; gs] /\ is_rect gm D1 N D (fun _ _ => 0) /\ is_rect gs D1 N D (fun _ _ => 0).
Proof.
  intros P f c loc ls d D N mu s rng pos neg coupling z w w' m u z' D1 Hf Hl Hs Hk Hz Hw Hw' Hm Hv.
  destruct (mv_jacobians f _ loc ls d D N mu s rng pos neg coupling z w w' m u z' Hf Hl Hs Hk Hz Hw Hw' Hm Hv) as (gm & gs & E & R1 & R2).
  exists gm, gs. split; [exact E|]. split; [eapply rect_ext; [|exact R1]|eapply rect_ext; [|exact R2]]; intros n k _ _; cbv beta; unfold Rdiv; ring.
Qed.

Lemma sig_upd D b v k a : (k < D)%nat -> Sig D (fun i => b i * upd v k a i) = Sig D (fun i => b i * v i) + b k * (a - v k).
Proof.
  intros H. induction D as [|D IH]; [lia|]. rewrite !Sig_S. destruct (Nat.eq_dec k D) as [->|].
  - assert (E : Sig D (fun i => b i * upd v D a i) = Sig D (fun i => b i * v i)).
    { apply Sig_ext. intros i Hi. unfold upd. destruct (Nat.eqb_spec i D); [lia|reflexivity]. }
    rewrite E. unfold upd. rewrite Nat.eqb_refl. ring.
  - rewrite IH by lia. unfold upd. destruct (Nat.eqb_spec D k); [lia|]. ring.
Qed.

(*@ C57_affine : With coupling, the affine function a + sum b_i x_i has at every sample the mean gradient b_k times the factor 2w/sqrt(2 pi) (w the Weibull draw, whose expectation is sqrt(pi/2), so that the factor has expectation 1) and the log-scale gradient b_k sigma_k m (1 - u): no other coordinate and no sample x_n enters. *)
Lemma mv_affine : forall `{P : Platform} (f : gt dual -> dual) (a : R) (b : rvec) (loc ls : gt XR) (d : fdt) (D N : nat) (mu s : rvec) (rng pos neg : p_key P) (z w m u : nat -> nat -> R),
  let D1 := promote (@defdt (XROps P)) d in
  computes f D1 D (fun v => a + Sig D (fun i => b i * v i)) -> is_vec loc d D mu -> is_vec ls d D s -> p_ksplit P rng 2 = [pos; neg] ->
  draws_are (p_knormal P rng (@defdt (XROps P)) [N; D]) N D z -> draws_are (p_kdraw P LWeibull pos [N; D]) N D w ->
  draws_are (p_kdraw P LMaxwell pos [N; D]) N D m -> draws_are (p_kdraw P LUniform neg [N; D]) N D u ->
  exists gm gs, measure_valued_jacobians true f [loc; ls] BNormal rng N = Ok [gm; gs] /\
    is_rect gm D1 N D (fun n k => b k * (2 * w n k / sqrt (2 * PI))) /\ is_rect gs D1 N D (fun n k => b k * exp (s k) * m n k * (1 - u n k)).
Proof.
  intros P f a b loc ls d D N mu s rng pos neg z w m u D1 Hf Hl Hs Hk Hz Hw Hm Hv.
  destruct (mv_jacobians f _ loc ls d D N mu s rng pos neg true z w w m u z Hf Hl Hs Hk Hz Hw Hw Hm Hv) as (gm & gs & E & R1 & R2).
  exists gm, gs. split; [exact E|]. split; [eapply rect_ext; [|exact R1]|eapply rect_ext; [|exact R2]]; intros n k Hn Hk'; cbv beta.
  - rewrite !sig_upd by assumption. field. repeat split; first [apply exp_nz|apply sqrt2pi].
  - rewrite !sig_upd by assumption. ring.
Qed.

Lemma rbind_step {A B C} (x : result A) (k : A -> result B) (r : B) (h : B -> result C) : rbind x k = Ok r -> rbind x (fun a => rbind (k a) h) = h r.
Proof. destruct x; cbn; [now intros ->|discriminate]. Qed.
Lemma bshape_cons N s : bshape s (N :: s) = Some (N :: s).
Proof.
  unfold bshape, padl. cbn [length]. rewrite Nat.max_r by lia. rewrite Nat.sub_diag. replace (S (length s) - length s)%nat with 1%nat by lia. cbn [repeat app bdims]. rewrite bdims_same. unfold bdim. destruct N as [|[|N]]; reflexivity.
Qed.
(*@ C57_errors : A distribution builder other than multi_normal raises ValueError, whatever it is; so do mean and log-scale arrays whose common shape is not of rank 1. *)
Lemma mv_errors : forall `{P : Platform} (f : gt dual -> dual) (params : list (gt XR)) (rng pos neg : p_key P) (N : nat) (coupling : bool),
  (forall mk, measure_valued_jacobians coupling f params (BOther mk) rng N = Err EValue) /\
  (forall loc ls, params = [loc; ls] -> twf loc -> twf ls -> shp loc = shp ls -> p_ksplit P rng 2 = [pos; neg] -> length (shp loc) <> 1%nat ->
     measure_valued_jacobians coupling f params BNormal rng N = Err EValue).
Proof.
  intros P f params rng pos neg N coupling. split; [reflexivity|]. intros loc ls -> Wl Ws Esh Hk Hr. unfold measure_valued_jacobians, multi_normal.
  cbn [un emap shp]. nx. rewrite <- Esh, bshape_same. cbn [rbind]. unfold measure_valued_estimation_mean. cbn [nd_mean nd_log_scale]. unfold nd_sample. cbn [nd_shape nd_scale nd_mean app].
  set (sh := shp loc) in *.
  assert (We : twf (@un (XROps P) (@fexp (XROps P)) ls)) by (unfold twf, un, emap in *; cbn [dat shp]; now rewrite map_length).
  assert (Se : shp (@un (XROps P) (@fexp (XROps P)) ls) = sh) by (symmetry; exact Esh).
  assert (Wd : forall g : nat -> XR, twf (mkT (@defdt (XROps P)) (N :: sh) (map g (seq 0 (prodn (N :: sh)))))) by (intros; unfold twf; cbn [dat shp]; now rewrite map_length, seq_length).
  nx.
  match goal with |- context [@bin (XROps P) ?op ?a ?b] => destruct (bin_x op a b (N :: sh)) as (r1 & E1 & (D1 & S1 & W1) & _); [apply Wd|exact We|cbn [shp]; nx; rewrite Se, bshape_comm; apply bshape_cons|] end.
  nx. rewrite E1. cbn [rbind].
  match goal with |- context [@bin (XROps P) ?op r1 ?b] => destruct (bin_x op r1 b (N :: sh)) as (r2 & E2 & (D2 & S2 & W2) & _); [exact W1|exact Wl|nx; rewrite S1, bshape_comm; apply bshape_cons|] end.
  nx. rewrite E2. cbn [rbind]. unfold split2. cbn [ksplit XROps]. rewrite Hk. cbn [rbind]. nx. rewrite S2.
  assert (Step : forall op1 op2 (q : gt XR), twf q -> shp q = N :: sh -> exists r0, (let* sp := @bin (XROps P) op1 (@un (XROps P) (@fexp (XROps P)) ls) q in @bin (XROps P) op2 loc sp) = Ok r0).
  { intros op1 op2 q Wq Sq. destruct (bin_x op1 _ q (N :: sh) We Wq) as (a & Ea & (_ & Sa & Wa) & _); [nx; rewrite Se, Sq; apply bshape_cons|]. rewrite Ea. cbn [rbind].
    destruct (bin_x op2 loc a (N :: sh) Wl Wa) as (b & Eb & _); [nx; rewrite Sa; apply bshape_cons|]. eauto. }
  assert (Wdr : forall k, twf (@draws (XROps P) LWeibull k (N :: sh))) by (intros; apply Wd).
  destruct (Step (@fmul (XROps P)) (@fadd (XROps P)) (@draws (XROps P) LWeibull pos (N :: sh)) (Wdr _) eq_refl) as (pd & Epd).
  destruct (Step (@fmul (XROps P)) (@fsub (XROps P)) (if coupling then @draws (XROps P) LWeibull pos (N :: sh) else @draws (XROps P) LWeibull neg (N :: sh))) as (nd & End); [destruct coupling; apply Wdr|destruct coupling; reflexivity|].
  etransitivity; [eapply (f_equal (fun x => rbind x _)); refine (rbind_step _ _ _ _ Epd)|].
  etransitivity; [eapply (f_equal (fun x => rbind x _)); refine (rbind_step _ _ _ _ End)|]. cbv beta.
  clearbody sh. destruct sh as [|n1 sh'].
  - destruct (tile_correct r2 [] N W2 S2) as (base & Eb & _ & Sb & _). nx. rewrite Eb. cbn [rbind]. rewrite (proj1 (@set_diags_errors (XROps P) base pd)) by (nx; rewrite Sb; cbn; lia). reflexivity.
  - destruct (exists_last (l := N :: n1 :: sh')) as (B & n & EB); [discriminate|]. rewrite EB in S2. destruct (tile_correct r2 B n W2 S2) as (base & Eb & _ & Sb & _). nx. rewrite Eb. cbn [rbind]. rewrite (proj1 (@set_diags_errors (XROps P) base pd)); [reflexivity|].
    nx. rewrite Sb, app_length. apply (f_equal (@length nat)) in EB. rewrite app_length in EB. cbn [length] in *. lia.
Qed.
