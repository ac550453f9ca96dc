(** Gradients of the losses (C67): the models of loss.py run on dual numbers. *)
From Verif Require Export P_dual.
From Coq Require Import List Psatz Reals Qreals.
Import ListNotations.
Open Scope R_scope.
(*@header
From Coq Require Import List.
Import ListNotations.
Open Scope R_scope.
*)

Lemma fd_add a t b u : (xadd (Fin a) (Fin b), xadd (Fin t) (Fin u)) = fd (a + b) (t + u). Proof. reflexivity. Qed.

Section DX.
  Context {P : Platform}.
  Notation dr := (DualOps P).
  Lemma dconv d d' x : @conv dr d d' x = x.
  Proof. unfold conv. now destruct (fdt_eqb d d'). Qed.
  Lemma d_add d a t b u : @fadd dr d (fd a t) (fd b u) = fd (a + b) (t + u). Proof. reflexivity. Qed.
  Lemma d_sub d a t b u : @fsub dr d (fd a t) (fd b u) = fd (a - b) (t - u). Proof. reflexivity. Qed.
  Lemma d_mul d a t b u : @fmul dr d (fd a t) (fd b u) = fd (a * b) (t * b + a * u). Proof. reflexivity. Qed.
  Lemma d_div d a t b u : b <> 0 -> @fdiv dr d (fd a t) (fd b u) = fd (a / b) (t / b - u * a / (b * b)).
  Proof. intros H. cbn [fdiv DualOps]. unfold fd. cbn [fst snd]. rewrite !xmul_fin, !xdiv_fin by nra. reflexivity. Qed.
  Lemma d_neg a t : @fneg dr (fd a t) = fd (- a) (- t). Proof. reflexivity. Qed.
  Lemma d_lit q : @flit dr q = fd (Q2R q) 0. Proof. reflexivity. Qed.
  Lemma d_exp d a t : @fexp dr d (fd a t) = fd (exp a) (t * exp a). Proof. reflexivity. Qed.
  Lemma d_log d a t : 0 < a -> @flog dr d (fd a t) = fd (ln a) (t * (1 / a)).
  Proof. intros H. cbn [flog DualOps]. unfold dun, fd. cbn [fst snd]. rewrite xlog_fin, xdiv_fin by lra. reflexivity. Qed.
  Lemma d_log1p d a t : -1 < a -> @flog1p dr d (fd a t) = fd (ln (1 + a)) (t * (1 / (a + 1))).
  Proof. intros H. cbn [flog1p DualOps]. unfold dun, fd. cbn [fst snd]. rewrite xlog1p_fin by lra. rewrite xadd_fin, xdiv_fin by lra. reflexivity. Qed.
  Lemma d_abs a t : @fabs dr (fd a t) = fd (Rabs a) (t * IZR (rsgn a)). Proof. reflexivity. Qed.
  Lemma bal_val x z y : balanced (Fin x) (Fin z) (Fin y) = Fin ((if Req_EM_T x z then 1 else 0) / (if Req_EM_T y z then 2 else 1)).
  Proof. unfold balanced. cbn [xeqb]. destruct (Req_EM_T x z), (Req_EM_T y z); rewrite xdiv_fin by lra; reflexivity. Qed.
  Lemma d_max a t b u : @fmax dr (fd a t) (fd b u) = fd (Rmax a b) (if Rlt_dec b a then t else if Rlt_dec a b then u else (t + u) / 2).
  Proof.
    cbn [fmax DualOps]. unfold dmaxmin, fd. cbn [fst snd xmax]. rewrite !bal_val, !xmul_fin, xadd_fin. f_equal. f_equal.
    destruct (Rlt_dec b a); [|destruct (Rlt_dec a b)].
    - rewrite Rmax_left by lra. destruct (Req_EM_T a a), (Req_EM_T b a); lra.
    - rewrite Rmax_right by lra. destruct (Req_EM_T b b), (Req_EM_T a b); lra.
    - assert (a = b) by lra. subst. rewrite Rmax_left by lra. destruct (Req_EM_T b b); lra.
  Qed.
  Lemma d_min a t b u : @fmin dr (fd a t) (fd b u) = fd (Rmin a b) (if Rlt_dec a b then t else if Rlt_dec b a then u else (t + u) / 2).
  Proof.
    cbn [fmin DualOps]. unfold dmaxmin, fd. cbn [fst snd xmin]. rewrite !bal_val, !xmul_fin, xadd_fin. f_equal. f_equal.
    destruct (Rlt_dec a b); [|destruct (Rlt_dec b a)].
    - rewrite Rmin_left by lra. destruct (Req_EM_T a a), (Req_EM_T b a); lra.
    - rewrite Rmin_right by lra. destruct (Req_EM_T b b), (Req_EM_T a b); lra.
    - assert (a = b) by lra. subst. rewrite Rmin_left by lra. destruct (Req_EM_T b b); lra.
  Qed.
  Lemma fd_ext a b t u : a = b -> t = u -> fd a t = fd b u. Proof. now intros -> ->. Qed.
  Lemma rsgn_cases a : (0 < a /\ IZR (rsgn a) = 1) \/ (a < 0 /\ IZR (rsgn a) = -1) \/ (a = 0 /\ IZR (rsgn a) = 0).
  Proof. unfold rsgn. destruct (Rlt_dec 0 a); [left; auto|]. destruct (Rlt_dec a 0); [right; left; auto|]. right. right. split; [lra|reflexivity]. Qed.

  Lemma bin_d op (a b : gt dual) s : twf a -> twf b -> bshape (shp a) (shp b) = Some s ->
    exists r, @bin dr op a b = Ok r /\ dt r = promote (dt a) (dt b) /\ shp r = s /\ twf r /\ forall o, valid s o -> @tget dr r o = op (promote (dt a) (dt b)) (@bget dr a o) (@bget dr b o).
  Proof. intros Wa Wb E. destruct (@bin_elem dr op a b s Wa Wb E) as (r & Er & Dr & Sr & Wr & H). exists r. repeat split; auto. intros o V. rewrite (H o V), !dconv. reflexivity. Qed.
  Lemma tget_d (t : gt dual) (f : fdt -> dual -> dual) o : twf t -> valid (shp t) o -> @tget dr (emap f t) o = f (dt t) (@tget dr t o).
  Proof. intros W V. exact (@tget_emap_gen dr f t o W V). Qed.
  Lemma bget_d (t : gt dual) (f : fdt -> dual -> dual) o : twf t -> valid (shp t) (bidx (shp t) o) -> @bget dr (emap f t) o = f (dt t) (@bget dr t o).
  Proof. intros W V. unfold bget. cbn [emap shp]. now apply tget_d. Qed.
  Lemma fsum_d d (l : list (R * R)) : @fsum dr d (map (fun p => fd (fst p) (snd p)) l) = fd (rsum (map fst l)) (rsum (map snd l)).
  Proof. cbn [fsum DualOps]. rewrite !map_map. unfold fd. cbn [fst snd]. f_equal; rewrite <- xsum_list, map_map; reflexivity. Qed.

  Lemma l2_elem d a t : @fmul dr d (@fcast dr d (@flit dr (1 # 2))) (@fmul dr d (fd a t) (fd a t)) = fd (a ^ 2 / 2) (a * t).
  Proof. rewrite d_lit. change (@fcast dr d (fd (Q2R (1 # 2)) 0)) with (fd (Q2R (1 # 2)) 0). rewrite !d_mul. replace (Q2R (1 # 2)) with (/ 2) by (unfold Q2R; cbn; lra). apply fd_ext; field. Qed.
  Definition huber_elem d (delta : R) (e : dual) : dual :=
    let ab := @fabs dr e in let q := @fmin dr ab (dconst (Fin delta)) in
    @fadd dr d (@fmul dr d (@flit dr (1 # 2)) (@fmul dr d q q)) (@fmul dr d (dconst (Fin delta)) (@fsub dr d ab q)).
  Lemma huber_elem_val d delta a t : 0 <= delta -> huber_elem d delta (fd a t) = fd (huber_of delta a) (clamp (- delta) delta a * t).
  Proof.
    intros Hd. unfold huber_elem. rewrite d_abs. change (dconst (Fin delta)) with (fd delta 0). rewrite d_min, d_lit, d_sub, !d_mul, d_add. replace (Q2R (1 # 2)) with (/ 2) by (unfold Q2R; cbn; lra).
    unfold huber_of, clamp. destruct (rsgn_cases a) as [(Ha & ->)|[(Ha & ->)|(Ha & ->)]].
    - rewrite Rabs_right by lra. destruct (Rlt_dec a delta); [|destruct (Rlt_dec delta a)].
      + rewrite (Rmin_left a) by lra. rewrite (Rmax_right (- delta) a), Rmin_right by lra. destruct (Rle_dec a delta); [|lra]. apply fd_ext; field.
      + rewrite (Rmin_right a) by lra. rewrite (Rmax_right (- delta) a), Rmin_left by lra. destruct (Rle_dec a delta); [lra|]. apply fd_ext; field.
      + assert (a = delta) by lra. subst. rewrite (Rmin_left delta) by lra. rewrite (Rmax_right (- delta) delta), Rmin_left by lra. destruct (Rle_dec delta delta); [|lra]. apply fd_ext; field.
    - rewrite Rabs_left by lra. destruct (Rlt_dec (- a) delta); [|destruct (Rlt_dec delta (- a))].
      + rewrite (Rmin_left (- a)) by lra. rewrite (Rmax_right (- delta) a), Rmin_right by lra. destruct (Rle_dec (- a) delta); [|lra]. apply fd_ext; field.
      + rewrite (Rmin_right (- a)) by lra. rewrite (Rmax_left (- delta) a), Rmin_right by lra. destruct (Rle_dec (- a) delta); [lra|]. apply fd_ext; field.
      + assert (delta = - a) by lra. subst. rewrite (Rmin_left (- a)) by lra. rewrite Ropp_involutive. rewrite Rmax_left, Rmin_right by lra. destruct (Rle_dec (- a) (- a)); [|lra]. apply fd_ext; field.
    - subst a. rewrite Rabs_R0. rewrite (Rmin_left 0 delta) by lra. rewrite (Rmax_right (- delta) 0), Rmin_right by lra. destruct (Rle_dec 0 delta); [|lra]. destruct (Rlt_dec 0 delta), (Rlt_dec delta 0); apply fd_ext; field.
  Qed.
  Lemma huber_run (e : gt dual) (delta : R) :
    @rbind _ _ (@bin dr (@fsub dr) (@un dr (fun _ => @fabs dr) e) (@sr dr (fun _ => @fmin dr) (@un dr (fun _ => @fabs dr) e) (dconst (Fin delta)))) (fun linear =>
      @bin dr (@fadd dr) (@sl dr (@fmul dr) (@flit dr (1 # 2)) (@tsquare dr (@sr dr (fun _ => @fmin dr) (@un dr (fun _ => @fabs dr) e) (dconst (Fin delta))))) (@sl dr (@fmul dr) (dconst (Fin delta)) linear))
    = Ok (emap (fun d x => huber_elem d delta x) e).
  Proof.
    unfold sr, un, sl, tsquare, un. rewrite !emap_emap. dx. rewrite (@bin_emap dr). cbn [rbind]. rewrite !emap_emap. dx. rewrite (@bin_emap dr). reflexivity.
  Qed.
End DX.

(*@ C67_l2_gradient : differentiating l2_loss gives, at every element, (prediction - target) times the tangent of the error. *)
Lemma l2_jvp : forall `{P : Platform} (p t : gt dual) (s : list nat), twf p -> twf t -> bshape (shp p) (shp t) = Some s ->
  exists r, @l2_loss (DualOps P) p (Some t) = Ok r /\ shp r = s /\ twf r /\
  forall o a a' b b', valid s o -> @bget (DualOps P) p o = fd a a' -> @bget (DualOps P) t o = fd b b' ->
    @tget (DualOps P) r o = fd ((a - b) ^ 2 / 2) ((a - b) * (a' - b')).
Proof.
  intros P p t s Wp Wt E. unfold l2_loss, errors. destruct (bin_d (@fsub (DualOps P)) p t s Wp Wt E) as (e & Ee & De & Se & We & He). dx. rewrite Ee. cbn [rbind]. eexists. split; [reflexivity|]. split; [exact Se|]. split; [now apply emap_wf, emap_wf|].
  intros o a a' b b' V Ea Eb. unfold sl, tsquare, un. rewrite emap_emap. rewrite tget_d by (auto; dx; rewrite Se; exact V). rewrite (He o V), Ea, Eb, d_sub, l2_elem. reflexivity.
Qed.
(*@ C67_huber_gradient : differentiating huber_loss gives, at every element and also at |error| = delta and error = 0, the error clipped to [-delta, delta] times the tangent of the error. *)
Lemma huber_jvp : forall `{P : Platform} (p t : gt dual) (delta : R) (s : list nat), twf p -> twf t -> bshape (shp p) (shp t) = Some s -> 0 <= delta ->
  exists r, @huber_loss (DualOps P) p (Some t) (dconst (Fin delta)) = Ok r /\ shp r = s /\ twf r /\
  forall o a a' b b', valid s o -> @bget (DualOps P) p o = fd a a' -> @bget (DualOps P) t o = fd b b' ->
    @tget (DualOps P) r o = fd (huber_of delta (a - b)) (clamp (- delta) delta (a - b) * (a' - b')).
Proof.
  intros P p t delta s Wp Wt E Hd. unfold huber_loss, errors. destruct (bin_d (@fsub (DualOps P)) p t s Wp Wt E) as (e & Ee & De & Se & We & He). dx. rewrite Ee. cbn [rbind].
  pose proof (huber_run e delta) as HR. dx. rewrite HR. eexists. split; [reflexivity|]. split; [exact Se|]. split; [now apply emap_wf|].
  intros o a a' b b' V Ea Eb. rewrite tget_d by (auto; dx; rewrite Se; exact V). rewrite (He o V), Ea, Eb, d_sub. now apply huber_elem_val.
Qed.

Section Sig.
  Context {P : Platform}.
  Notation dr := (DualOps P).
  Lemma log_sigmoid_d d x t : @log_sigmoid dr d (fd x t) = fd (ln (sigmoid x)) ((1 - sigmoid x) * t).
  Proof.
    unfold log_sigmoid, softplus, logaddexp. rewrite d_neg. change (@fcast dr d (@fzero dr)) with (fd (Q2R 0) 0). rewrite Q2R_0.
    rewrite d_sub. cbn [fisnan DualOps]. change (xisnan (fst (fd (- x - 0) (- t - 0)))) with false. cbv iota.
    rewrite d_abs, d_neg, d_exp, d_log1p by (pose proof (exp_pos (- Rabs (- x - 0))); lra). rewrite d_max, d_add, d_neg.
    pose proof (@log_sigmoid_val P d x) as HV. unfold log_sigmoid, softplus, logaddexp in HV. unfold fzero in HV. cbn [fcast flit fneg fmax fsub fisnan fadd flog1p fexp fabs XROps xneg] in HV. rewrite Q2R_0, xsub_fin in HV. cbn [xmax xisnan xabs xneg xexp] in HV. rewrite xlog1p_fin in HV by (pose proof (exp_pos (- Rabs (- x - 0))); lra). cbn [xadd xneg] in HV. injection HV as HV.
    apply fd_ext; [exact HV|]. clear HV. rewrite !Rminus_0_r. unfold sigmoid. pose proof (exp_pos (- x)) as H1. pose proof (exp_pos x) as H2. assert (H3 : exp x * exp (- x) = 1) by (rewrite <- exp_plus, Rplus_opp_r; apply exp_0).
    destruct (rsgn_cases (- x)) as [(Ha & ->)|[(Ha & ->)|(Ha & ->)]].
    - rewrite (Rabs_right (- x)) by lra. rewrite Ropp_involutive. destruct (Rlt_dec 0 (- x)); [|lra]. replace (exp x) with (/ exp (- x)) by (field_simplify_eq; lra). field. split; lra.
    - rewrite (Rabs_left (- x)) by lra. rewrite Ropp_involutive. destruct (Rlt_dec 0 (- x)); [lra|]. destruct (Rlt_dec (- x) 0); [|lra]. field. lra.
    - replace x with 0 by lra. rewrite Ropp_0, Rabs_R0, Ropp_0, exp_0. destruct (Rlt_dec 0 0); [lra|]. field.
  Qed.
End Sig.
(*@ C67_bce_gradient : differentiating sigmoid_binary_cross_entropy gives, at every element, (sigmoid(logit) - label) times the logit's tangent (minus logit times the label's tangent). *)
Lemma bce_jvp : forall `{P : Platform} (x l : gt dual), twf x -> twf l -> broadcasts_to (shp x) (shp l) ->
  exists r, @sigmoid_binary_cross_entropy (DualOps P) x l = Ok r /\ shp r = shp l /\ twf r /\
  forall o a a' b b', valid (shp l) o -> @bget (DualOps P) x o = fd a a' -> @tget (DualOps P) l o = fd b b' ->
    @tget (DualOps P) r o = fd (bce a b) ((sigmoid a - b) * a' - a * b').
Proof.
  intros P x l Wx Wl Ha. apply broadcasts_iff in Ha. unfold sigmoid_binary_cross_entropy. dx. rewrite Ha. cbn [rbind]. apply assert_bshape in Ha. pose proof Ha as Hb. rewrite bshape_comm in Hb.
  destruct (@bin_d P (@fmul (DualOps P)) (@un (DualOps P) (fun _ => @fneg (DualOps P)) l) (@un (DualOps P) (@log_sigmoid (DualOps P)) x) (shp l)) as (a & Ea & Da & Sa & Wa & Va); [now apply emap_wf|now apply emap_wf|exact Hb|]. dx. rewrite Ea. cbn [rbind].
  destruct (@bin_d P (@fmul (DualOps P)) (@sl (DualOps P) (@fsub (DualOps P)) (@fone (DualOps P)) l) (@un (DualOps P) (@log_sigmoid (DualOps P)) (@un (DualOps P) (fun _ => @fneg (DualOps P)) x)) (shp l)) as (b & Eb & Db & Sb & Wb & Vb); [now apply emap_wf|now apply emap_wf, emap_wf|exact Hb|]. dx. rewrite Eb. cbn [rbind].
  destruct (@bin_d P (@fsub (DualOps P)) a b (shp l)) as (r & Er & Dr & Sr & Wr & Vr); [exact Wa|exact Wb|rewrite Sa, Sb; apply bshape_same|]. dx. exists r. split; [exact Er|]. split; [exact Sr|]. split; [exact Wr|].
  intros o u u' v v' V Eu Ev. rewrite (Vr o V). unfold bget at 1 2. dx. rewrite Sa, Sb, bidx_same by exact V. rewrite (Va o V), (Vb o V).
  destruct (bshape_valid _ _ _ o Ha V) as (Vx & _). assert (Vl : valid (shp l) (bidx (shp l) o)) by now rewrite bidx_same.
  assert (Ev' : @bget (DualOps P) l o = fd v v') by (unfold bget; rewrite bidx_same; auto).
  unfold un, sl. rewrite !(@bget_d P) by (auto; now apply emap_wf). dx. rewrite Eu, Ev'. change (@fcast (DualOps P) (dt l) (@fone (DualOps P))) with (fd (Q2R 1) 0). rewrite Q2R_1.
  rewrite !d_neg, !log_sigmoid_d, d_sub, !d_mul, d_sub, sigmoid_neg. unfold bce. apply fd_ext; [ring|].
  assert (EL : ln (1 - sigmoid u) = ln (sigmoid u) - u).
  { rewrite <- sigmoid_neg. unfold sigmoid, Rdiv. rewrite !Rmult_1_l, !ln_Rinv by (pose proof (exp_pos (- u)); pose proof (exp_pos (- - u)); lra). rewrite Ropp_involutive. pose proof (exp_pos u). pose proof (exp_pos (- u)).
    assert (E : 1 + exp u = exp u * (1 + exp (- u))) by (rewrite Rmult_plus_distr_l, <- exp_plus, Rplus_opp_r, exp_0; lra). rewrite E, ln_mult, ln_exp by lra. lra. }
  rewrite EL. ring.
Qed.

Section Soft.
  Context {P : Platform}.
  Notation dr := (DualOps P).
  (** sum_j p_j t_j *)
  Definition pdot (ps ts : list R) : R := rsum (map2 Rmult ps ts).
  Lemma max_list_fst (l : list dual) : l <> [] -> fst (@max_list dr l) = @max_list (XROps P) (map fst l).
  Proof.
    destruct l as [|x l]; [easy|]. intros _. cbn [max_list map]. revert x. induction l as [|y l IH]; intros x; [reflexivity|]. cbn [fold_left map]. etransitivity; [apply IH|]. reflexivity.
  Qed.
  Lemma log_softmax_d (x : gt dual) B n : twf x -> shp x = B ++ [n] -> (0 < n)%nat -> exists r, @log_softmax dr x = Ok r /\ dt r = dt x /\ shp r = B ++ [n] /\ twf r /\
    forall o xs, valid B o -> @row dr x o = map (fun p => fd (fst p) (snd p)) xs ->
      @row dr r o = map (fun p => fd (ln (exp (fst p) / rsum (map exp (map fst xs)))) (snd p - pdot (softmax (map fst xs)) (map snd xs))) xs.
  Proof.
    intros W E Hn. unfold log_softmax. assert (El : last_dim (shp x) = Ok n) by (unfold last_dim; rewrite E; destruct (B ++ [n]) as [|x0 l0] eqn:EB; [destruct B; discriminate|]; rewrite <- EB; now rewrite last_snoc). dx. rewrite El. destruct n as [|n']; [lia|]. set (n := S n') in *.
    destruct (@last_keep_val dr (fun _ => @max_list dr) x B n E) as (m & Em & Dm & Sm & Wm & Hm). dx. rewrite Em. cbn [rbind].
    destruct (@keep_rows dr (@fsub dr) x (@un dr (fun _ => @fstop dr) m) B n) as (sh & Esh & Dsh & Ssh & Wsh & Hsh); [exact W|now apply emap_wf|exact Dm|exact E|exact Sm|]. dx. rewrite Esh. cbn [rbind].
    destruct (@last_keep_val dr (@fsum dr) (@un dr (@fexp dr) sh) B n) as (s & Es & Ds & Ss & Ws & Hs); [exact Ssh|]. dx. rewrite Es. cbn [rbind].
    destruct (@keep_rows dr (@fsub dr) sh (@un dr (@flog dr) s) B n) as (r & Er & Dr & Sr & Wr & Hr); [exact Wsh|now apply emap_wf|etransitivity; [exact Ds|reflexivity]|exact Ssh|exact Ss|].
    exists r. split; [exact Er|]. split; [etransitivity; [exact Dr|exact Dsh]|]. split; [exact Sr|]. split; [exact Wr|]. intros o xs V Ex.
    assert (Hlen : length xs = n) by (pose proof (eq_trans (eq_sym (@row_length dr x o)) (f_equal (@length dual) Ex)) as HH; rewrite map_length in HH; dx; rewrite E, last_snoc in HH; congruence).
    assert (Hne : xs <> []) by (destruct xs; [cbn in Hlen; lia|discriminate]).
    assert (V0 : valid (B ++ [1%nat]) (o ++ [0%nat])) by (apply valid_snoc; exists o, 0%nat; repeat split; auto; lia).
    set (M := rmaxl (map fst xs)). assert (EM : fst (@tget dr m (o ++ [0%nat])) = Fin M).
    { rewrite (Hm o V). rewrite max_list_fst by (rewrite Ex; destruct xs; [easy|discriminate]). apply max_list_val. dx. rewrite Ex, !map_map. reflexivity. }
    assert (Rsh : @row dr sh o = map (fun p => fd (fst p - M) (snd p)) xs).
    { etransitivity; [exact (Hsh o V)|]. unfold un. dx. rewrite Ex. rewrite (@tget_emap_val dr) by (auto; dx; rewrite Sm; exact V0). dx. rewrite map_map. apply map_ext. intros p. cbn [fstop DualOps]. rewrite EM. unfold dconst. change (Fin M, Fin 0) with (fd M 0). rewrite d_sub. apply fd_ext; lra. }
    set (S0 := rsum (map (fun p => exp (fst p - M)) xs)). assert (HS : 0 < S0) by (unfold S0; rewrite <- (map_map (fun p => fst p - M) exp); apply rsum_exp_pos; destruct xs; [easy|discriminate]).
    assert (ES : @tget dr s (o ++ [0%nat]) = fd S0 (rsum (map (fun p => snd p * exp (fst p - M)) xs))).
    { etransitivity; [exact (Hs o V)|]. etransitivity; [apply f_equal; etransitivity; [exact (@emap_row dr (@fexp dr) sh B n o Wsh Ssh V)|]; apply f_equal; exact Rsh|]. rewrite map_map. etransitivity; [|].
      - apply f_equal. instantiate (1 := map (fun p => fd (fst p) (snd p)) (map (fun p => (exp (fst p - M), snd p * exp (fst p - M))) xs)). rewrite map_map. apply map_ext. intros p. apply d_exp.
      - rewrite fsum_d, !map_map. reflexivity. }
    etransitivity; [exact (Hr o V)|]. unfold un. rewrite (@tget_emap_val dr) by (auto; dx; rewrite Ss; exact V0). dx. rewrite Rsh, ES, d_log by exact HS. rewrite map_map. apply map_ext. intros p. rewrite d_sub.
    assert (EE : forall a, exp (a - M) = exp a * exp (- M)) by (intros; unfold Rminus; apply exp_plus).
    assert (ES0 : S0 = exp (- M) * rsum (map exp (map fst xs))). { unfold S0. rewrite map_map, <- rsum_scal, map_map. f_equal. apply map_ext. intros q. rewrite EE. lra. }
    pose proof (exp_pos (- M)) as HM. assert (HR : 0 < rsum (map exp (map fst xs))) by (apply rsum_exp_pos; destruct xs; [easy|discriminate]).
    apply fd_ext.
    - rewrite ES0, ln_mult by assumption. rewrite ln_exp, ln_div, ln_exp by (try apply exp_pos; exact HR). lra.
    - f_equal. unfold pdot, softmax.
      assert (EP : map2 Rmult (map (fun x0 => exp x0 / rsum (map exp (map fst xs))) (map fst xs)) (map snd xs) = map (fun a => / S0 * a) (map (fun q => snd q * exp (fst q - M)) xs)).
      { rewrite ES0. generalize (rsum (map exp (map fst xs))) as T, HR. intros T HT. clearbody M. clear - EE HT HM. induction xs as [|q xs IH]; [reflexivity|]. cbn [map map2]. rewrite IH, EE. f_equal. field. split; lra. }
      rewrite EP, rsum_scal. field. lra.
  Qed.
End Soft.
(*@ C67_softmax_ce_gradient : differentiating softmax_cross_entropy with constant labels gives, at every row, sum_j (softmax(logits)_j * (sum of the labels) - label_j) * tangent_j; for labels that sum to one this is the familiar softmax(logits) - labels. *)
Lemma ce_jvp : forall `{P : Platform} (x l : gt dual) (B B' : list nat) (n : nat), twf x -> twf l -> shp l = B ++ [n] -> shp x = B' ++ [n] -> (0 < n)%nat -> broadcasts_to (shp x) (shp l) ->
  exists r, @softmax_cross_entropy (DualOps P) x l = Ok r /\ shp r = B /\ twf r /\
  forall o (xs : list (R * R)) (ls : list R), valid B o -> @row (DualOps P) x (bidx B' o) = map (fun p => fd (fst p) (snd p)) xs -> @row (DualOps P) l o = map (fun b => fd b 0) ls ->
    @tget (DualOps P) r o = fd (cross_entropy ls (softmax (map fst xs))) (rsum (map2 Rmult (map2 (fun p b => p * rsum ls - b) (softmax (map fst xs)) ls) (map snd xs))).
Proof.
  intros P x l B B' n Wx Wl El Ex Hn Ha. apply broadcasts_iff in Ha. unfold softmax_cross_entropy. dx. rewrite Ha. cbn [rbind]. destruct (log_softmax_d x B' n Wx Ex Hn) as (s & Es & Ds & Ss & Ws & Hs). dx. rewrite Es. cbn [rbind].
  rewrite El, Ex in Ha. apply assert_snoc in Ha. pose proof Ha as Hb. rewrite bshape_comm in Hb.
  destruct (@bin_rows (DualOps P) (@fmul (DualOps P)) l s B B' B n Wl Ws El Ss Hb) as (w & Ew & Dw & Sw & Ww & Hw). dx. rewrite Ew. cbn [rbind]. destruct (@last_drop_val (DualOps P) (@fsum (DualOps P)) w B n Sw) as (k & Ek & Dk & Sk & Wk & Hk). dx. rewrite Ek. cbn [rbind].
  eexists. split; [reflexivity|]. split; [exact Sk|]. split; [now apply emap_wf|].
  intros o xs ls V Rx Rl. unfold un. rewrite (@tget_emap_val (DualOps P)) by (auto; dx; rewrite Sk; exact V). dx. rewrite (Hk o V), (Hw o V). rewrite bidx_same by exact V. destruct (bshape_valid _ _ _ o Ha V) as (V' & _). dx. rewrite Rl, (Hs _ xs V' Rx).
  assert (Lx : length xs = n) by (pose proof (eq_trans (eq_sym (@row_length (DualOps P) x (bidx B' o))) (f_equal (@length dual) Rx)) as HH; rewrite map_length in HH; dx; rewrite Ex, last_snoc in HH; congruence).
  assert (Ll : length ls = n) by (pose proof (eq_trans (eq_sym (@row_length (DualOps P) l o)) (f_equal (@length dual) Rl)) as HH; rewrite map_length in HH; dx; rewrite El, last_snoc in HH; congruence).
  set (T := pdot (softmax (map fst xs)) (map snd xs)). set (Z := rsum (map exp (map fst xs))).
  assert (EW : map2 (fun u v => @fmul (DualOps P) (promote (dt l) (dt s)) (@conv (DualOps P) (dt l) (promote (dt l) (dt s)) u) (@conv (DualOps P) (dt s) (promote (dt l) (dt s)) v)) (map (fun b => fd b 0) ls) (map (fun p => fd (ln (exp (fst p) / Z)) (snd p - T)) xs)
     = map (fun p => fd (fst p) (snd p)) (map2 (fun b p => (b * ln (exp (fst p) / Z), b * (snd p - T))) ls xs)).
  { clearbody T Z. clear. revert xs. induction ls as [|b ls IH]; intros [|p xs]; cbn [map map2]; try reflexivity. rewrite IH, !dconv, d_mul. cbn [fst snd]. f_equal. apply fd_ext; ring. }
  etransitivity; [apply f_equal; apply f_equal; exact EW|]. rewrite fsum_d, d_neg. apply fd_ext.
  - unfold cross_entropy, softmax. fold Z. f_equal. f_equal. clearbody T Z. clear. revert xs. induction ls as [|b ls IH]; intros [|p xs]; cbn [map map2]; try reflexivity. rewrite IH. reflexivity.
  - assert (E1 : rsum (map snd (map2 (fun b p => (b * ln (exp (fst p) / Z), b * (snd p - T))) ls xs)) = rsum (map2 Rmult ls (map snd xs)) - T * rsum ls).
    { clearbody T Z. clear - Lx Ll. assert (Hl : length ls = length xs) by congruence. clear Lx Ll. revert xs Hl. induction ls as [|b ls IH]; intros [|p xs] Hl; cbn [map map2 snd] in *; try discriminate; rewrite ?rsum_nil, ?rsum_cons; [lra|]. rewrite IH by (cbn in Hl; lia). lra. }
    rewrite E1. unfold T, pdot. assert (Hl : length ls = length xs) by congruence. generalize (rsum ls) as L. intros L. clearbody Z.
    assert (G : forall ps, length ps = length xs -> - (rsum (map2 Rmult ls (map snd xs)) - rsum (map2 Rmult ps (map snd xs)) * L) = rsum (map2 Rmult (map2 (fun p b => p * L - b) ps ls) (map snd xs))).
    { clear - Hl. revert ls Hl. induction xs as [|q xs IH]; intros [|b ls] Hl [|p ps] Hp; cbn [map map2] in *; try discriminate; rewrite ?rsum_nil, ?rsum_cons; [lra|]. rewrite <- IH by (cbn in Hl, Hp; lia). lra. }
    apply G. unfold softmax. now rewrite !map_length.
Qed.
(*@ex C67_example *)
Lemma grad_example : forall `{P : Platform}, exists r, @huber_loss (DualOps P) (mkT F32 [2%nat] [fd 3 1; fd (1 / 2) 1]) (Some (mkT F32 [2%nat] [fd 0 0; fd 0 0])) (dconst (Fin 1)) = Ok r /\
  @tget (DualOps P) r [0%nat] = fd (huber_of 1 3) 1 /\ @tget (DualOps P) r [1%nat] = fd (huber_of 1 (1 / 2)) (1 / 2).
Proof.
  intros P. destruct (@huber_jvp P (mkT F32 [2%nat] [fd 3 1; fd (1 / 2) 1]) (mkT F32 [2%nat] [fd 0 0; fd 0 0]) 1 [2%nat] eq_refl eq_refl eq_refl ltac:(lra)) as (r & Er & _ & _ & H). exists r. split; [exact Er|]. split.
  - etransitivity; [apply (H [0%nat] 3 1 0 0); [cbn; lia|reflexivity|reflexivity]|]. unfold clamp. rewrite Rmax_right, Rmin_left by lra. apply fd_ext; [f_equal; lra|lra].
  - etransitivity; [apply (H [1%nat] (1 / 2) 1 0 0); [cbn; lia|reflexivity|reflexivity]|]. unfold clamp. rewrite Rmax_right, Rmin_right by lra. apply fd_ext; [f_equal; lra|lra].
Qed.
