(** The Gaussian, the score-function and the pathwise gradient estimators (C68). *)
From Verif Require Export P_estim P_grad.
From Coq Require Import List Psatz Reals Qreals Lia.
Import ListNotations.
Open Scope R_scope.
(*@header
From Coq Require Import List.
Import ListNotations.
Open Scope R_scope.
*)

(** ** Specification *)
(** The density of the diagonal Gaussian with means mu and standard deviations sg. *)
Fixpoint density (D : nat) (mu sg x : rvec) : R :=
  match D with
  | O => 1
  | S D' => density D' mu sg x * (/ (sg D' * sqrt (2 * PI)) * exp (- ((x D' - mu D') / sg D') ^ 2 / 2))
  end.
(** The vector (v 0, ..., v (D-1)) with tangents t. *)
Definition dpoint (d : fdt) (D : nat) (v t : rvec) : gt dual := mkT d [D] (map (fun i => fd (v i) (t i)) (seq 0 D)).
(** [f] computes the function phi, whose gradient is grad: what jax.jvp returns for it. *)
Definition differentiates (f : gt dual -> dual) (d : fdt) (D : nat) (phi : rvec -> R) (grad : rvec -> rvec) : Prop :=
  forall v t, f (dpoint d D v t) = fd (phi v) (Sig D (fun i => grad v i * t i)).

Section DX.
  Context {P : Platform}.
  Notation dr := (DualOps P). Notation xr := (XROps P).
  Definition is_dvec (t : gt dual) (d : fdt) (D : nat) (v w : rvec) : Prop :=
    dt t = d /\ shp t = [D] /\ twf t /\ forall i, (i < D)%nat -> @tget dr t [i] = fd (v i) (w i).
  Definition is_drect (t : gt dual) (d : fdt) (N D : nat) (A B : nat -> nat -> R) : Prop :=
    dt t = d /\ shp t = [N; D] /\ twf t /\ forall n i, (n < N)%nat -> (i < D)%nat -> @tget dr t [n; i] = fd (A n i) (B n i).
  Lemma dbin_rv op (t v : gt dual) d d' N D x x' A A' g g' : is_drect t d' N D A A' -> is_dvec v d D x x' -> (forall dd a b a' b', op dd (fd a a') (fd b b') = fd (g a b) (g' a a' b b')) ->
    exists r, @bin dr op t v = Ok r /\ is_drect r (promote d' d) N D (fun n i => g (A n i) (x i)) (fun n i => g' (A n i) (A' n i) (x i) (x' i)).
  Proof.
    intros (Dt & St & Wt & Gt) (Dv & Sv & Wv & Gv) Hop.
    destruct (bin_d op t v [N; D] Wt Wv) as (r & Er & Dr & Sr & Wr & Hr); [dx; rewrite Sv, St; apply row_shape_r|]. exists r. split; [exact Er|]. dx. repeat split; auto; [now rewrite Dr, Dt, Dv|].
    intros n i Hn Hi. rewrite Hr by (cbn; auto). unfold bget. dx. rewrite Sv, St, bidx_row, bidx_rect by assumption. rewrite Gv, Gt by assumption. apply Hop.
  Qed.
  Lemma dbin_vv op (t v : gt dual) d d' D x x' y y' g g' : is_dvec t d' D y y' -> is_dvec v d D x x' -> (forall i, (i < D)%nat -> forall dd, op dd (fd (y i) (y' i)) (fd (x i) (x' i)) = fd (g i) (g' i)) ->
    exists r, @bin dr op t v = Ok r /\ is_dvec r (promote d' d) D g g'.
  Proof.
    intros (Dt & St & Wt & Gt) (Dv & Sv & Wv & Gv) Hop.
    destruct (bin_d op t v [D] Wt Wv) as (r & Er & Dr & Sr & Wr & Hr); [dx; rewrite Sv, St; apply bshape_same|]. exists r. split; [exact Er|]. dx. repeat split; auto; [now rewrite Dr, Dt, Dv|].
    intros i Hi. rewrite Hr by (cbn; auto). unfold bget. dx. rewrite Sv, St, bidx_same by (cbn; auto). rewrite Gv, Gt by assumption. now apply Hop.
  Qed.
  Lemma dmap_v (f : fdt -> dual -> dual) (t : gt dual) d D v w g g' : is_dvec t d D v w -> (forall i, (i < D)%nat -> forall dd, f dd (fd (v i) (w i)) = fd (g i) (g' i)) -> is_dvec (emap f t) d D g g'.
  Proof.
    intros (Dt & St & Wt & Gt) H. repeat split; auto.
    - unfold twf in *. cbn [emap dat shp]. now rewrite map_length.
    - intros i Hi. rewrite tget_d; [|exact Wt|rewrite St; cbn; auto]. rewrite Gt by assumption. now apply H.
  Qed.
  Lemma dvec_ext t d D v w v' w' : (forall i, (i < D)%nat -> v i = v' i /\ w i = w' i) -> is_dvec t d D v w -> is_dvec t d D v' w'.
  Proof. intros E (H1 & H2 & H3 & H4). repeat split; auto. intros i Hi. destruct (E i Hi) as (<- & <-). auto. Qed.
  Lemma drect_ext t d N D A B A' B' : (forall n i, (n < N)%nat -> (i < D)%nat -> A n i = A' n i /\ B n i = B' n i) -> is_drect t d N D A B -> is_drect t d N D A' B'.
  Proof. intros E (H1 & H2 & H3 & H4). repeat split; auto. intros n i Hn Hi. destruct (E n i Hn Hi) as (<- & <-). auto. Qed.
  Lemma ddrawn_rect (draw : nat -> XR) d N D z : draws_are draw N D z -> is_drect (mkT d [N; D] (map (fun i => dconst (draw i)) (seq 0 (prodn [N; D])))) d N D z (fun _ _ => 0).
  Proof.
    intros H. repeat split; auto.
    - unfold twf. cbn [dat shp]. now rewrite map_length, seq_length.
    - intros n i Hn Hi. unfold tget. cbn [shp dat]. rewrite ravel2. assert (Hlt : (n * D + i < prodn [N; D])%nat) by (cbn; nia). apply nth_error_nth. rewrite nth_error_map, (nth_error_nth' _ 0%nat) by (rewrite seq_length; exact Hlt). rewrite seq_nth by exact Hlt. cbn [option_map]. dx. f_equal. cbn [Nat.add]. rewrite H by assumption. reflexivity.
  Qed.
  Lemma ddim d D v t t' : is_dvec t d D v t' -> t = dpoint d D v t'.
  Proof.
    intros (D0 & S & W & H). destruct t as [d0 s0 l]. cbn in D0, S. subst. unfold dpoint. f_equal. pose proof (@dat_tget dr (mkT d [D] l) W) as E. cbn [dat shp] in E. rewrite indices1, map_map in E. etransitivity; [exact E|]. apply map_ext_in. intros i Hi. apply In_seq0 in Hi. now apply H.
  Qed.

  Lemma dsample (loc ls : gt dual) d D mu mu' s s' dist seed N z : is_dvec loc d D mu mu' -> is_dvec ls d D s s' -> @multi_normal dr loc ls = Ok dist -> draws_are (p_knormal P seed (@defdt xr) [N; D]) N D z ->
    exists r, @nd_sample dr dist [N] seed = Ok r /\ is_drect r (promote (@defdt xr) d) N D (gauss mu s z) (fun n i => mu' i + exp (s i) * z n i * s' i).
  Proof.
    intros Hl Hs Ed Hz. unfold multi_normal in Ed. pose proof Hl as (Dl & Sl & Wl & _).
    assert (He : is_dvec (@un dr (@fexp dr) ls) d D (fun i => exp (s i)) (fun i => s' i * exp (s i))) by (apply (dmap_v _ _ _ _ _ _ _ _ Hs); intros; apply d_exp).
    pose proof He as (De & Se & We & _). dx. rewrite Sl, Se, bshape_same in Ed. injection Ed as <-. unfold nd_sample. cbn [nd_shape nd_scale nd_mean app].
    destruct (dbin_rv (@fmul dr) _ (@un dr (@fexp dr) ls) d (@defdt xr) N D _ _ z _ Rmult (fun a a' b b' => a' * b + a * b') (ddrawn_rect (p_knormal P seed (@defdt xr) [N; D]) (@defdt xr) N D z Hz) He) as (a & Ea & Ha); [intros; apply d_mul|].
    destruct (dbin_rv (@fadd dr) a loc d _ N D mu mu' _ _ Rplus (fun a a' b b' => a' + b') Ha Hl) as (r & Er & Hr); [intros; apply d_add|].
    exists r. split; [etransitivity; [exact (f_equal (fun x => rbind x (fun a => @bin dr (@fadd dr) a loc)) Ea)|exact Er]|]. rewrite promote_idem in Hr. eapply drect_ext; [|exact Hr]. intros n i _ _. unfold gauss. cbv beta. split; ring.
  Qed.

  (** log_prob of the Gaussian at the point x, with tangents of the parameters. *)
  Definition logp (mu s x : rvec) (i : nat) : R := (ln (2 * PI * (exp (s i) * exp (s i))) + (x i - mu i) * (x i - mu i) / (exp (s i) * exp (s i))) / -2.
  Lemma two_pi_pos a : 0 < 2 * PI * (exp a * exp a).
  Proof. pose proof PI_RGT_0. pose proof (exp_pos a). apply Rmult_lt_0_compat; nra. Qed.
  Lemma fsum_sig d D g h : @fsum dr d (map (fun i => fd (g i) (h i)) (seq 0 D)) = fd (Sig D g) (Sig D h).
  Proof. cbn [fsum DualOps]. rewrite !map_map. unfold fd, Sig. cbn [fst snd]. f_equal; rewrite <- xsum_list, map_map; reflexivity. Qed.
  Lemma dlog_prob (loc ls xt : gt dual) d dx0 D mu mu' s s' x dist : is_dvec loc d D mu mu' -> is_dvec ls d D s s' -> @multi_normal dr loc ls = Ok dist -> is_dvec xt dx0 D x (fun _ => 0) ->
    @nd_log_prob dr dist xt = Ok (promote dx0 d, fd (Sig D (logp mu s x)) (Sig D (fun i => mu' i * ((x i - mu i) / (exp (s i) * exp (s i))) + s' i * (((x i - mu i) / exp (s i)) * ((x i - mu i) / exp (s i)) - 1)))).
  Proof.
    intros Hl Hs Ed Hx. unfold multi_normal in Ed. pose proof Hl as (Dl & Sl & Wl & _).
    assert (He : is_dvec (@un dr (@fexp dr) ls) d D (fun i => exp (s i)) (fun i => s' i * exp (s i))) by (apply (dmap_v _ _ _ _ _ _ _ _ Hs); intros; apply d_exp).
    pose proof He as (De & Se & We & _). pose proof Hx as (Dx & Sx & Wx & _). dx. rewrite Sl, Se, bshape_same in Ed. assert (Ed' : dist = @mkND dr loc ls (@un dr (@fexp dr) ls) [D]) by (injection Ed as <-; reflexivity). subst dist. clear Ed. unfold nd_log_prob, logpdf. cbn [nd_mean nd_scale nd_shape]. pose proof Hs as (Ds & _). change (dt (@un dr (@fexp dr) ls)) with (dt ls). dx. rewrite Dx, Dl, Ds.
    replace (promote (promote dx0 d) d) with (promote dx0 d) by (symmetry; apply promote_idem). set (D2 := promote dx0 d).
    assert (Ha : forall (t : gt dual) d0 v v', is_dvec t d0 D v v' -> is_dvec (@astype dr D2 t) D2 D v v').
    { intros t d0 v v' (E1 & E2 & E3 & E4). repeat split; auto.
      - unfold twf in *. cbn [astype dat shp]. now rewrite map_length.
      - intros i Hi. replace (@astype dr D2 t) with (mkT D2 (shp t) (dat t)); [exact (E4 i Hi)|]. unfold astype. f_equal. symmetry. etransitivity; [|apply map_id]. apply map_ext. intros a. apply dconv. }
    destruct (dbin_vv (@fmul dr) _ _ _ _ D _ _ _ _ (fun i => exp (s i) * exp (s i)) (fun i => 2 * s' i * (exp (s i) * exp (s i))) (Ha _ _ _ _ He) (Ha _ _ _ _ He)) as (sq & Esq & Hsq); [intros; rewrite d_mul; apply fd_ext; ring|]. rewrite Esq. cbn [rbind]. rewrite promote_same in Hsq.
    destruct (dbin_vv (@fsub dr) _ _ _ _ D _ _ _ _ (fun i => x i - mu i) (fun i => - mu' i) (Ha _ _ _ _ Hx) (Ha _ _ _ _ Hl)) as (c & Ec & Hc); [intros; rewrite d_sub; apply fd_ext; ring|]. rewrite Ec. cbn [rbind]. rewrite promote_same in Hc.
    assert (Hc2 : is_dvec (@tsquare dr c) D2 D (fun i => (x i - mu i) * (x i - mu i)) (fun i => - 2 * mu' i * (x i - mu i))) by (apply (dmap_v _ _ _ _ _ _ _ _ Hc); intros; rewrite d_mul; apply fd_ext; ring).
    assert (Nz : forall i, exp (s i) * exp (s i) <> 0) by (intros i; pose proof (exp_pos (s i)); nra).
    destruct (dbin_vv (@fdiv dr) _ _ _ _ D _ _ _ _ (fun i => (x i - mu i) * (x i - mu i) / (exp (s i) * exp (s i))) (fun i => - 2 * mu' i * (x i - mu i) / (exp (s i) * exp (s i)) - 2 * s' i * ((x i - mu i) * (x i - mu i) / (exp (s i) * exp (s i)))) Hc2 Hsq) as (q & Eq & Hq); [intros; rewrite d_div by apply Nz; apply fd_ext; [reflexivity|field; apply exp_nz]|].
    rewrite Eq. cbn [rbind]. rewrite promote_same in Hq.
    assert (Hln : is_dvec (@un dr (@flog dr) (@sl dr (@fmul dr) (@fmul dr F64 (@fofZ dr 2) (@fpi dr)) sq)) D2 D (fun i => ln (2 * PI * (exp (s i) * exp (s i)))) (fun i => 2 * s' i)).
    { assert (H1 : is_dvec (@sl dr (@fmul dr) (@fmul dr F64 (@fofZ dr 2) (@fpi dr)) sq) D2 D (fun i => 2 * PI * (exp (s i) * exp (s i))) (fun i => 2 * PI * (2 * s' i * (exp (s i) * exp (s i))))).
      { apply (dmap_v _ _ _ _ _ _ _ _ Hsq). intros i Hi dd. cbn [fcast DualOps]. unfold fofZ. rewrite d_lit. change (@fpi dr) with (fd PI 0). rewrite !d_mul, Q2R_Z. apply fd_ext; ring. }
      apply (dmap_v _ _ _ _ _ _ _ _ H1). intros i Hi dd. rewrite d_log by apply two_pi_pos. apply fd_ext; [reflexivity|]. field. split; [apply exp_nz|apply PI_neq0]. }
    destruct (dbin_vv (@fadd dr) _ _ _ _ D _ _ _ _ (fun i => ln (2 * PI * (exp (s i) * exp (s i))) + (x i - mu i) * (x i - mu i) / (exp (s i) * exp (s i))) (fun i => 2 * s' i + (- 2 * mu' i * (x i - mu i) / (exp (s i) * exp (s i)) - 2 * s' i * ((x i - mu i) * (x i - mu i) / (exp (s i) * exp (s i))))) Hln Hq) as (l & El & Hl2); [intros; apply d_add|].
    rewrite El. cbn [rbind]. rewrite promote_same in Hl2.
    assert (Hr : is_dvec (@sr dr (@fdiv dr) l (@fofZ dr (-2))) D2 D (logp mu s x) (fun i => mu' i * ((x i - mu i) / (exp (s i) * exp (s i))) + s' i * (((x i - mu i) / exp (s i)) * ((x i - mu i) / exp (s i)) - 1))).
    { apply (dmap_v _ _ _ _ _ _ _ _ Hl2). intros i Hi dd. cbn [fcast DualOps]. unfold fofZ. rewrite d_lit, Q2R_Z, d_div by (cbn; lra). apply fd_ext; [reflexivity|]. field. apply exp_nz. }
    revert Hr. generalize (@sr dr (@fdiv dr) l (@fofZ dr (-2))). intros r0 (Dr & Sr & Wr & Gr). dx. rewrite Sr. cbn [length Nat.eqb]. rewrite Dr. f_equal. f_equal. unfold tsum. dx. rewrite Dr.
    pose proof (@dat_tget dr _ Wr) as Ed. dx. rewrite Sr, indices1, map_map in Ed. rewrite Ed. unfold Sig.
    etransitivity; [|apply fsum_sig].
    dx. f_equal. apply map_ext_in. intros i Hi. apply In_seq0 in Hi. now apply Gr.
  Qed.

  Lemma mapM_all {A B} (f : A -> result B) (Q : A -> B -> Prop) l : (forall a, In a l -> exists b, f a = Ok b /\ Q a b) -> exists r, mapM f l = Ok r /\ Forall2 Q l r.
  Proof.
    induction l as [|a l IH]; intros H; [exists []; split; [reflexivity|constructor]|]. destruct (H a (or_introl eq_refl)) as (b & Eb & Qb). destruct IH as (r & Er & Qr); [intros; apply H; now right|].
    exists (b :: r). split; [|now constructor]. cbn. rewrite Eb. cbn [rbind]. cbn in Er. rewrite Er. reflexivity.
  Qed.
  Lemma Forall2_nth_error {A B} (Q : A -> B -> Prop) l r i a : Forall2 Q l r -> nth_error l i = Some a -> exists b, nth_error r i = Some b /\ Q a b.
  Proof. intros H; revert i; induction H as [|x y l r Hxy H IH]; intros [|i]; cbn; try discriminate; [intros [= <-]; eauto|apply IH]. Qed.
  Lemma basis_vec (p : gt XR) (j i k D : nat) d v : is_vec p d D v -> (k < D)%nat ->
    is_dvec (tab (dt p) (shp p) (fun o => (@tget xr p o, if (j =? i)%nat && shape_eqb o [k] then Fin 1 else Fin 0))) d D v (fun i' => if (j =? i)%nat then idm k i' else 0).
  Proof.
    intros H Hk. destruct (is_vec_parts _ _ _ _ H) as (Dp & Sp & Wp). nx. rewrite Dp, Sp. repeat split; [apply tab_wf|].
    intros i0 Hi. etransitivity; [apply (@tget_tab dr); cbn; auto|]. cbv beta. rewrite (is_vec_tget _ _ _ _ H i0 Hi). unfold fd, idm. f_equal. destruct (j =? i)%nat; [|reflexivity]. cbn [andb]. destruct (Nat.eqb_spec k i0) as [->|N]; [now rewrite (proj2 (shape_eqb_eq _ _) eq_refl)|]. destruct (shape_eqb [i0] [k]) eqn:E; [|reflexivity]. apply shape_eqb_eq in E. congruence.
  Qed.
  Lemma lift_vec (p : gt XR) D d v : is_vec p d D v -> is_dvec (lift p) d D v (fun _ => 0).
  Proof.
    intros H. destruct (is_vec_parts _ _ _ _ H) as (Dp & Sp & Wp). repeat split; auto.
    - unfold twf in *. cbn [lift emap dat shp]. now rewrite map_length.
    - intros i Hi. pose proof H as (_ & _ & _ & G). unfold tget, lift, emap. cbn [shp dat]. rewrite Sp. cbn [ravel prodn fold_right]. rewrite Nat.mul_1_r, Nat.add_0_r. apply nth_error_nth. now rewrite nth_error_map, (G i Hi).
  Qed.
  (** The jacobian of a function of two vectors with N outputs, from its jvp. *)
  Lemma jac2 (g : list (gt dual) -> result (gt dual)) (loc ls : gt XR) d D D1 N mu s V T :
    is_vec loc d D mu -> is_vec ls d D s ->
    (forall L S mu' s', is_dvec L d D mu mu' -> is_dvec S d D s s' -> exists y, g [L; S] = Ok y /\ dt y = D1 /\ shp y = [N] /\ forall n, (n < N)%nat -> @tget dr y [n] = fd (V n) (T mu' s' n)) ->
    exists j1 j2, jacfwd g [loc; ls] = Ok [j1; j2] /\ is_rect j1 D1 N D (fun n k => T (idm k) (fun _ => 0) n) /\ is_rect j2 D1 N D (fun n k => T (fun _ => 0) (idm k) n).
  Proof.
    intros Hl Hs Hg. unfold jacfwd. cbn [map]. destruct (Hg _ _ _ _ (lift_vec _ _ _ _ Hl) (lift_vec _ _ _ _ Hs)) as (y0 & Ey0 & Dy0 & Sy0 & _). rewrite Ey0. cbn [rbind length seq combine].
    destruct (is_vec_parts _ _ _ _ Hl) as (_ & Sl & _). destruct (is_vec_parts _ _ _ _ Hs) as (_ & Ss & _).
    assert (K : forall i (p : gt XR) T1, shp p = [D] -> (forall k, (k < D)%nat -> exists y, g (@basis P [loc; ls] i [k]) = Ok y /\ (shp y = [N] /\ forall n, (n < N)%nat -> @tget dr y [n] = fd (V n) (T1 n k))) ->
      exists j, (let* ys := mapM (fun k => g (@basis P [loc; ls] i k)) (indices (shp p)) in
        let r := length (shp y0) in
        Ok (tab (dt y0) (shp y0 ++ shp p) (fun o => snd (@tget dr (nth (ravel (shp p) (skipn r o)) ys y0) (firstn r o))))) = Ok j /\ is_rect j D1 N D T1).
    { intros i p T1 Sp Hk. rewrite Sp. destruct (mapM_all (fun k => g (@basis P [loc; ls] i k)) (fun o y => exists k, o = [k] /\ shp y = [N] /\ forall n, (n < N)%nat -> @tget dr y [n] = fd (V n) (T1 n k)) (indices [D])) as (ys & Eys & F2).
      { intros o Ho. apply In_indices in Ho. apply valid1 in Ho as (k & -> & Hk'). destruct (Hk k Hk') as (y & Ey & Hy). exists y. split; [exact Ey|]. exists k. split; [reflexivity|exact Hy]. }
      rewrite Eys. cbn [rbind]. rewrite Sy0, Dy0. eexists. split; [reflexivity|]. cbn [app length]. apply (@rect_intro P); [reflexivity|reflexivity|apply tab_wf|]. intros n k Hn Hk'. etransitivity; [apply (@tget_tab xr); cbn; auto|]. cbn [skipn firstn].
      destruct (Forall2_nth_error _ _ _ (ravel [D] [k]) [k] F2) as (y & Ny & k' & Ek & _ & Ht); [apply nth_error_indices; cbn; auto|]. injection Ek as <-.
      rewrite (nth_error_nth _ _ _ Ny). rewrite Ht by assumption. reflexivity. }
    destruct (K 0%nat loc (fun n k => T (idm k) (fun _ => 0) n) Sl) as (j1 & Ej1 & R1).
    { intros k Hk. destruct (Hg _ _ _ _ (basis_vec loc 0 0 k D d mu Hl Hk) (basis_vec ls 1 0 k D d s Hs Hk)) as (y & Ey & _ & Sy & Hy). exists y. split; [exact Ey|]. split; [exact Sy|exact Hy]. }
    destruct (K 1%nat ls (fun n k => T (fun _ => 0) (idm k) n) Ss) as (j2 & Ej2 & R2).
    { intros k Hk. destruct (Hg _ _ _ _ (basis_vec loc 0 1 k D d mu Hl Hk) (basis_vec ls 1 1 k D d s Hs Hk)) as (y & Ey & _ & Sy & Hy). exists y. split; [exact Ey|]. split; [exact Sy|exact Hy]. }
    exists j1, j2. split; [|split; assumption]. cbn [mapM combine seq length]. cbv zeta in Ej1, Ej2.
    etransitivity; [exact (f_equal (fun x => rbind x _) Ej1)|]. cbn [rbind].
    etransitivity; [refine (f_equal (fun x => rbind x _) _); exact (f_equal (fun x => rbind x _) Ej2)|]. reflexivity.
  Qed.
End DX.

Lemma Sig_idm D g k : (k < D)%nat -> Sig D (fun i => g i * idm k i) = g k.
Proof. intros H. rewrite <- (Sig_delta D g k H). apply Sig_ext. intros i _. unfold idm. ring. Qed.

(*@ C68_pathwise : pathwise_jacobians with multi_normal, for every function phi with gradient grad, every number of samples and dimension and all draws z: the reparameterised sample is x_n = mu + sigma z_n, the jacobian for the mean is grad_k phi(x_n) and the one for the log-scale is grad_k phi(x_n) sigma_k z_nk. *)
Lemma pathwise : forall `{P : Platform} (f : gt dual -> dual) (phi : rvec -> R) (grad : rvec -> rvec) (loc ls : gt XR) (d : fdt) (D N : nat) (mu s : rvec) (rng : p_key P) (z : nat -> nat -> R),
  let D1 := promote (@defdt (XROps P)) d in
  differentiates f D1 D phi grad -> is_vec loc d D mu -> is_vec ls d D s -> draws_are (p_knormal P rng (@defdt (XROps P)) [N; D]) N D z ->
  exists jm js, pathwise_jacobians f [loc; ls] BNormal rng N = Ok [jm; js] /\
    is_rect jm D1 N D (fun n k => grad (gauss mu s z n) k) /\ is_rect js D1 N D (fun n k => grad (gauss mu s z n) k * (exp (s k) * z n k)).
Proof.
  intros P f phi grad loc ls d D N mu s rng z D1 Hf Hl Hs Hz. unfold pathwise_jacobians.
  edestruct (fun g => @jac2 P g loc ls d D D1 N mu s (fun n => phi (gauss mu s z n)) (fun mu' s' n => Sig D (fun i => grad (gauss mu s z n) i * (mu' i + exp (s i) * z n i * s' i))) Hl Hs) as (j1 & j2 & E & R1 & R2).
  2: { exists j1, j2. split; [exact E|]. split; [eapply rect_ext; [|exact R1]|eapply rect_ext; [|exact R2]]; intros n k Hn Hk; cbv beta.
       - etransitivity; [|apply (Sig_idm D (grad (gauss mu s z n)) k Hk)]. apply Sig_ext. intros i _. ring.
       - etransitivity; [|apply (Sig_idm D (fun i => grad (gauss mu s z n) i * (exp (s i) * z n i)) k Hk)]. apply Sig_ext. intros i _. ring. }
  intros L S mu' s' HL HS. cbv beta. unfold build.
  assert (Hd : exists dist, @multi_normal (DualOps P) L S = Ok dist).
  { unfold multi_normal. pose proof HL as (_ & SL & _). pose proof HS as (_ & SS & _). change (shp (@un (DualOps P) (@fexp (DualOps P)) S)) with (shp S). dx. rewrite SL, SS, bshape_same. eauto. }
  destruct Hd as (dist & Ed). rewrite Ed. cbn [rbind dd_sample].
  destruct (dsample L S d D mu mu' s s' dist rng N z HL HS Ed Hz) as (smp & Es & (Ds & Ss & Ws & Gs)). rewrite Es. cbn [rbind]. eexists. split; [reflexivity|].
  unfold vmap_fn. dx. rewrite Ss, Ds. cbn [hd]. split; [reflexivity|]. split; [reflexivity|]. intros n Hn. etransitivity; [apply (@tget_tab (DualOps P)); cbn; auto|]. cbn [hd].
  assert (Er : @slice0 (DualOps P) smp n = dpoint D1 D (gauss mu s z n) (fun i => mu' i + exp (s i) * z n i * s' i)).
  { apply (@ddim P). unfold slice0. dx. rewrite Ss, Ds. cbn [tl]. split; [reflexivity|]. split; [reflexivity|]. split; [apply tab_wf|]. intros i Hi. etransitivity; [apply (@tget_tab (DualOps P)); cbn; auto|]. now apply Gs. }
  rewrite Er. apply Hf.
Qed.

(*@ C68_score : score_function_jacobians with multi_normal, for every function phi (of which only values at the samples are used), number of samples, dimension and all draws: with x_n = mu + sigma z_n, the jacobian for the mean is phi(x_n) (x_nk - mu_k)/sigma_k^2 and the one for the log-scale phi(x_n) (((x_nk - mu_k)/sigma_k)^2 - 1), that is phi times the gradient of the log density; the dependence of the samples on the parameters is not differentiated. *)
Lemma score : forall `{P : Platform} (f : gt dual -> dual) (phi : rvec -> R) (loc ls : gt XR) (d : fdt) (D N : nat) (mu s : rvec) (rng : p_key P) (z : nat -> nat -> R),
  let D1 := promote (@defdt (XROps P)) d in
  (forall v, f (dpoint D1 D v (fun _ => 0)) = fd (phi v) 0) -> is_vec loc d D mu -> is_vec ls d D s -> draws_are (p_knormal P rng (@defdt (XROps P)) [N; D]) N D z ->
  exists jm js, score_function_jacobians f [loc; ls] BNormal rng N = Ok [jm; js] /\
    is_rect jm D1 N D (fun n k => phi (gauss mu s z n) * ((gauss mu s z n k - mu k) / exp (s k) ^ 2)) /\
    is_rect js D1 N D (fun n k => phi (gauss mu s z n) * (((gauss mu s z n k - mu k) / exp (s k)) ^ 2 - 1)).
Proof.
  intros P f phi loc ls d D N mu s rng z D1 Hf Hl Hs Hz. unfold score_function_jacobians.
  set (G := fun mu' s' n => Sig D (fun i => mu' i * ((gauss mu s z n i - mu i) / (exp (s i) * exp (s i))) + s' i * (((gauss mu s z n i - mu i) / exp (s i)) * ((gauss mu s z n i - mu i) / exp (s i)) - 1))).
  edestruct (fun g => @jac2 P g loc ls d D D1 N mu s (fun n => phi (gauss mu s z n) * Sig D (logp mu s (gauss mu s z n))) (fun mu' s' n => phi (gauss mu s z n) * G mu' s' n) Hl Hs) as (j1 & j2 & E & R1 & R2).
  2: { exists j1, j2. split; [exact E|]. split; [eapply rect_ext; [|exact R1]|eapply rect_ext; [|exact R2]]; intros n k Hn Hk; cbv beta; f_equal; unfold G.
       - etransitivity; [|apply (Sig_idm D (fun i => (gauss mu s z n i - mu i) / exp (s i) ^ 2) k Hk)]. apply Sig_ext. intros i _. field. apply exp_nz.
       - etransitivity; [|apply (Sig_idm D (fun i => ((gauss mu s z n i - mu i) / exp (s i)) ^ 2 - 1) k Hk)]. apply Sig_ext. intros i _. field. apply exp_nz. }
  intros L S mu' s' HL HS. cbv beta. unfold build.
  assert (Hd : exists dist, @multi_normal (DualOps P) L S = Ok dist).
  { unfold multi_normal. pose proof HL as (_ & SL & _). pose proof HS as (_ & SS & _). change (shp (@un (DualOps P) (@fexp (DualOps P)) S)) with (shp S). dx. rewrite SL, SS, bshape_same. eauto. }
  destruct Hd as (dist & Ed). rewrite Ed. cbn [rbind dd_sample dd_log_prob].
  destruct (dsample L S d D mu mu' s s' dist rng N z HL HS Ed Hz) as (smp & Es & (Ds & Ss & Ws & Gs)). rewrite Es. cbn [rbind].
  set (st := emap (fun _ => @fstop (DualOps P)) smp).
  assert (Hst : is_drect st D1 N D (gauss mu s z) (fun _ _ => 0)).
  { split; [exact Ds|]. split; [exact Ss|]. split; [unfold twf, st in *; cbn [emap dat shp]; now rewrite map_length|]. intros n i Hn Hi. unfold st. rewrite tget_d; [|exact Ws|rewrite Ss; cbn; auto]. rewrite Gs by assumption. reflexivity. }
  destruct Hst as (Dst & Sst & Wst & Gst). clearbody st.
  assert (Hrow : forall v k, (forall i, (i < D)%nat -> @tget (DualOps P) st [k; i] = fd (v i) 0) -> is_dvec (@slice0 (DualOps P) st k) D1 D v (fun _ => 0)).
  { intros v k Hv. unfold slice0. dx. rewrite Sst, Dst. cbn [tl]. split; [reflexivity|]. split; [reflexivity|]. split; [apply tab_wf|]. intros i Hi. etransitivity; [apply (@tget_tab (DualOps P)); cbn; auto|]. now apply Hv. }
  match goal with |- context [@vmap_s _ ?o _] => set (one := o) end.
  assert (Hone : forall v k, (forall i, (i < D)%nat -> @tget (DualOps P) st [k; i] = fd (v i) 0) ->
    one (@slice0 (DualOps P) st k) = Ok (D1, fd (phi v * Sig D (logp mu s v)) (phi v * Sig D (fun i => mu' i * ((v i - mu i) / (exp (s i) * exp (s i))) + s' i * (((v i - mu i) / exp (s i)) * ((v i - mu i) / exp (s i)) - 1))))).
  { intros v k Hv. pose proof (Hrow v k Hv) as Hr. unfold one. dx. rewrite (dlog_prob L S _ d D1 D mu mu' s s' v dist HL HS Ed Hr). cbn [rbind]. rewrite (ddim _ _ _ _ _ Hr). cbn [dpoint dt]. fold (dpoint D1 D v (fun _ => 0)). rewrite Hf, !dconv.
    assert (EP : promote D1 d = D1) by apply promote_idem. rewrite EP, promote_same, d_mul. f_equal. f_equal. apply fd_ext; ring. }
  assert (Htr : exists p, one (@slice0 (DualOps P) st 0) = Ok (D1, p)).
  { destruct N as [|N].
    - eexists. apply (Hone (fun _ => 0)). intros i Hi. unfold tget. assert (Ed0 : dat st = []) by (apply length_zero_iff_nil; etransitivity; [exact Wst|]; dx; rewrite Sst; reflexivity). dx. rewrite Ed0. destruct (ravel (shp st) [0%nat; i]); cbn [nth]; unfold fzero; rewrite d_lit, Q2R_0; reflexivity.
    - eexists. apply (Hone (gauss mu s z 0)). intros i Hi. apply Gst; [lia|exact Hi]. }
  destruct Htr as (p & Ep). unfold vmap_s. rewrite Ep. cbn [rbind]. dx. rewrite Sst. cbn [hd].
  rewrite mapM_map.
  destruct (mapM_all (fun k => one (@slice0 (DualOps P) st k)) (fun k y => snd y = fd (phi (gauss mu s z k) * Sig D (logp mu s (gauss mu s z k))) (phi (gauss mu s z k) * G mu' s' k)) (seq 0 N)) as (ys & Eys & F2).
  { intros k Hk. apply In_seq0 in Hk. eexists. split; [apply (Hone (gauss mu s z k)); intros i Hi; now apply Gst|]. reflexivity. }
  rewrite Eys. cbn [rbind]. eexists. split; [reflexivity|]. split; [reflexivity|]. split; [reflexivity|].
  intros n Hn. unfold tget. cbn [shp dat ravel prodn fold_right]. rewrite Nat.mul_1_r, Nat.add_0_r. apply nth_error_nth.
  destruct (Forall2_nth_error _ _ _ n n F2) as (y & Ny & Ey); [rewrite (nth_error_nth' _ 0%nat) by (rewrite seq_length; exact Hn); now rewrite seq_nth|]. rewrite nth_error_map, Ny. cbn [option_map]. f_equal. exact Ey.
Qed.

Section XV.
  Context {P : Platform}.
  Notation xr := (XROps P).
  Lemma bin_vv op (t v : gt XR) d d' D x y g : is_vec t d' D y -> is_vec v d D x -> (forall i, (i < D)%nat -> forall dd, op dd (Fin (y i)) (Fin (x i)) = Fin (g i)) ->
    exists r, @bin xr op t v = Ok r /\ is_vec r (promote d' d) D g.
  Proof.
    intros Ht Hv Hop. destruct (is_vec_parts _ _ _ _ Ht) as (Dt & St & Wt). destruct (is_vec_parts _ _ _ _ Hv) as (Dv & Sv & Wv).
    destruct (bin_x op t v [D] Wt Wv) as (r & Er & (Dr & Sr & Wr) & Hr); [nx; rewrite Sv, St; apply bshape_same|]. exists r. split; [exact Er|]. nx. apply (@vec_intro P); auto; [now rewrite Dr, Dt, Dv|].
    intros i Hi. rewrite Hr by (cbn; auto). unfold bget. nx. rewrite Sv, St, bidx_same by (cbn; auto). rewrite (is_vec_tget _ _ _ _ Ht i Hi), (is_vec_tget _ _ _ _ Hv i Hi). now apply Hop.
  Qed.
  Lemma map_v (f : fdt -> XR -> XR) (t : gt XR) d D v g : is_vec t d D v -> (forall i, (i < D)%nat -> forall dd, f dd (Fin (v i)) = Fin (g i)) -> is_vec (emap f t) d D g.
  Proof.
    intros (Dt & St & Wt & Gt) H. repeat split; auto.
    - unfold twf in *. cbn [emap dat shp]. now rewrite map_length.
    - intros i Hi. cbn [emap dat]. rewrite nth_error_map, (Gt i Hi). cbn [option_map]. f_equal. now apply H.
  Qed.
End XV.

Lemma density_pos D mu sg x : (forall i, (i < D)%nat -> 0 < sg i) -> 0 < density D mu sg x.
Proof.
  induction D as [|D IH]; intros H; cbn [density]; [lra|]. apply Rmult_lt_0_compat; [apply IH; auto|]. apply Rmult_lt_0_compat; [|apply exp_pos].
  apply Rinv_0_lt_compat. apply Rmult_lt_0_compat; [apply H; lia|]. apply sqrt_lt_R0. pose proof PI_RGT_0. lra.
Qed.
Lemma logp_density D mu s x : Sig D (logp mu s x) = ln (density D mu (fun i => exp (s i)) x).
Proof.
  induction D as [|D IH]; cbn [density]; [rewrite ln_1; reflexivity|]. rewrite Sig_S, IH.
  assert (H2 : 0 < sqrt (2 * PI)) by (apply sqrt_lt_R0; pose proof PI_RGT_0; lra).
  assert (H3 : 0 < exp (s D) * sqrt (2 * PI)) by (apply Rmult_lt_0_compat; [apply exp_pos|exact H2]).
  rewrite ln_mult; [|apply density_pos; intros; apply exp_pos|apply Rmult_lt_0_compat; [now apply Rinv_0_lt_compat|apply exp_pos]]. f_equal.
  rewrite ln_mult by (first [now apply Rinv_0_lt_compat|apply exp_pos]). rewrite ln_exp, ln_Rinv by exact H3. unfold logp.
  replace (2 * PI * (exp (s D) * exp (s D))) with ((exp (s D) * sqrt (2 * PI)) * (exp (s D) * sqrt (2 * PI))).
  - rewrite ln_mult by exact H3. field. apply exp_nz.
  - replace ((exp (s D) * sqrt (2 * PI)) * (exp (s D) * sqrt (2 * PI))) with ((sqrt (2 * PI) * sqrt (2 * PI)) * (exp (s D) * exp (s D))) by ring. rewrite sqrt_sqrt; [ring|]. pose proof PI_RGT_0. lra.
Qed.

(*@ C68_log_prob : The log_prob of multi_normal at every point is the logarithm of the density of the diagonal Gaussian with the given means and the exponentials of the given log-scales. *)
Lemma normal_log_prob : forall `{P : Platform} (loc ls xt : gt XR) (d dx0 : fdt) (D : nat) (mu s x : rvec),
  is_vec loc d D mu -> is_vec ls d D s -> is_vec xt dx0 D x ->
  exists dist, @multi_normal (XROps P) loc ls = Ok dist /\ @nd_log_prob (XROps P) dist xt = Ok (promote dx0 d, Fin (ln (density D mu (fun i => exp (s i)) x))).
Proof.
  intros P loc ls xt d dx0 D mu s x Hl Hs Hx. unfold multi_normal. destruct (is_vec_parts _ _ _ _ Hl) as (Dl & Sl & Wl). pose proof (@exp_vec P ls d D s Hs) as He. destruct (is_vec_parts _ _ _ _ He) as (De & Se & We). destruct (is_vec_parts _ _ _ _ Hx) as (Dx & Sx & Wx).
  nx. rewrite Sl, Se, bshape_same. eexists. split; [reflexivity|]. unfold nd_log_prob, logpdf. cbn [nd_mean nd_scale nd_shape].
  revert He De Se We. generalize (@un (XROps P) (@fexp (XROps P)) ls). intros sc He De Se We. nx. rewrite Dx, Dl, De.
  replace (promote (promote dx0 d) d) with (promote dx0 d) by (symmetry; apply promote_idem). set (D2 := promote dx0 d).
  assert (Ha : forall (t : gt XR) d0 v, is_vec t d0 D v -> is_vec (@astype (XROps P) D2 t) D2 D v).
  { intros t d0 v (E1 & E2 & E3 & E4). repeat split; auto.
    - unfold twf in *. cbn [astype dat shp]. now rewrite map_length.
    - intros i Hi. cbn [astype dat]. nx. rewrite nth_error_map, (E4 i Hi). cbn [option_map]. f_equal. apply conv_x. }
  destruct (bin_vv (@fmul (XROps P)) _ _ _ _ D _ _ (fun i => exp (s i) * exp (s i)) (Ha _ _ _ He) (Ha _ _ _ He)) as (sq & Esq & Hsq); [reflexivity|]. rewrite Esq. cbn [rbind]. rewrite promote_same in Hsq.
  destruct (bin_vv (@fsub (XROps P)) _ _ _ _ D _ _ (fun i => x i - mu i) (Ha _ _ _ Hx) (Ha _ _ _ Hl)) as (c & Ec & Hc); [reflexivity|]. rewrite Ec. cbn [rbind]. rewrite promote_same in Hc.
  assert (Hc2 : is_vec (@tsquare (XROps P) c) D2 D (fun i => (x i - mu i) * (x i - mu i))) by (apply (map_v _ _ _ _ _ _ Hc); reflexivity).
  assert (Nz : forall i, exp (s i) * exp (s i) <> 0) by (intros i; pose proof (exp_pos (s i)); nra).
  destruct (bin_vv (@fdiv (XROps P)) _ _ _ _ D _ _ (fun i => (x i - mu i) * (x i - mu i) / (exp (s i) * exp (s i))) Hc2 Hsq) as (q & Eq & Hq); [intros; apply xdiv_fin, Nz|]. rewrite Eq. cbn [rbind]. rewrite promote_same in Hq.
  assert (Hln : is_vec (@un (XROps P) (@flog (XROps P)) (@sl (XROps P) (@fmul (XROps P)) (@fmul (XROps P) F64 (@fofZ (XROps P) 2) (@fpi (XROps P))) sq)) D2 D (fun i => ln (2 * PI * (exp (s i) * exp (s i))))).
  { assert (H1 : is_vec (@sl (XROps P) (@fmul (XROps P)) (@fmul (XROps P) F64 (@fofZ (XROps P) 2) (@fpi (XROps P))) sq) D2 D (fun i => 2 * PI * (exp (s i) * exp (s i)))).
    { apply (map_v _ _ _ _ _ _ Hsq). intros i Hi dd. unfold fofZ. cbn [fcast fmul flit fpi XROps]. rewrite Q2R_Z, !xmul_fin. reflexivity. }
    apply (map_v _ _ _ _ _ _ H1). intros i Hi dd. apply xlog_fin. apply two_pi_pos. }
  destruct (bin_vv (@fadd (XROps P)) _ _ _ _ D _ _ (fun i => ln (2 * PI * (exp (s i) * exp (s i))) + (x i - mu i) * (x i - mu i) / (exp (s i) * exp (s i))) Hln Hq) as (l & El & Hl2); [reflexivity|]. rewrite El. cbn [rbind]. rewrite promote_same in Hl2.
  assert (Hr : is_vec (@sr (XROps P) (@fdiv (XROps P)) l (@fofZ (XROps P) (-2))) D2 D (logp mu s x)).
  { apply (map_v _ _ _ _ _ _ Hl2). intros i Hi dd. unfold fofZ. cbn [fcast fdiv flit XROps]. rewrite Q2R_Z, xdiv_fin by (cbn; lra). reflexivity. }
  revert Hr. generalize (@sr (XROps P) (@fdiv (XROps P)) l (@fofZ (XROps P) (-2))). intros r Hr. destruct (is_vec_parts _ _ _ _ Hr) as (Dr & Sr & Wr). nx. rewrite Sr, Dr. cbn [length Nat.eqb]. f_equal. f_equal.
  rewrite <- logp_density. unfold tsum. cbn [fsum XROps]. nx. rewrite (is_vec_dat _ _ _ _ Hr). etransitivity; [apply xsum_list|]. reflexivity.
Qed.

(*@ C68_sample : The samples of multi_normal are mean + scale * standard normal draw, element-wise, with the key given; the result has a leading sample axis. *)
Lemma normal_sample : forall `{P : Platform} (loc ls : gt XR) (d : fdt) (D N : nat) (mu s : rvec) (seed : p_key P) (z : nat -> nat -> R),
  is_vec loc d D mu -> is_vec ls d D s -> draws_are (p_knormal P seed (@defdt (XROps P)) [N; D]) N D z ->
  exists dist r, @multi_normal (XROps P) loc ls = Ok dist /\ @nd_sample (XROps P) dist [N] seed = Ok r /\ is_rect r (promote (@defdt (XROps P)) d) N D (fun n i => mu i + exp (s i) * z n i).
Proof.
  intros P loc ls d D N mu s seed z Hl Hs Hz.
  assert (Hd : exists dist, @multi_normal (XROps P) loc ls = Ok dist).
  { unfold multi_normal. destruct (is_vec_parts _ _ _ _ Hl) as (_ & Sl & _). destruct (is_vec_parts _ _ _ _ (@exp_vec P ls d D s Hs)) as (_ & Se & _). nx. rewrite Sl, Se, bshape_same. eauto. }
  destruct Hd as (dist & Ed). destruct (sample_rect loc ls d D mu s dist seed N z Hl Hs Ed Hz) as (_ & _ & r & Er & Hr). exists dist, r. auto.
Qed.

(** Examples: on a platform whose draws are the constant 1, with the function sum(x^2). *)
Definition ones_platform : Platform := Build_Platform false nat (fun _ => 0%nat) (fun k n => map (fun i => (k * n + i + 1)%nat) (seq 0 n)) (fun _ _ _ _ => Fin 1) (fun _ _ _ _ => Fin 1).
Definition sum_sq : gt dual -> dual := fun x => @tsum (DualOps ones_platform) (@tsquare (DualOps ones_platform) x).
Definition ex_loc : gt XR := mkT F32 [2%nat] [Fin 3; Fin 4].
Definition ex_ls : gt XR := mkT F32 [2%nat] [Fin 0; Fin 0].
Lemma sum_sq_diff d D : differentiates sum_sq d D (fun v => Sig D (fun i => v i * v i)) (fun v i => 2 * v i).
Proof.
  intros v t. unfold sum_sq, tsum, tsquare, un, dpoint, emap. cbn [dt dat]. change (@F (DualOps ones_platform)) with dual. rewrite map_map. etransitivity; [|apply (@fsum_sig ones_platform d)]. f_equal. apply map_ext. intros i. rewrite d_mul. apply fd_ext; ring.
Qed.
Lemma ex_vec a b : is_vec (mkT F32 [2%nat] [Fin a; Fin b]) F32 2 (fun i => if (i =? 0)%nat then a else b).
Proof. repeat split. intros [|[|i]] Hi; try reflexivity. lia. Qed.
(*@ex C57_example *)
Lemma mv_example : exists gm gs, @measure_valued_jacobians ones_platform true sum_sq [ex_loc; ex_ls] BNormal 0%nat 1%nat = Ok [gm; gs] /\
  is_rect gm F32 1 2 (fun n k => (if (k =? 0)%nat then 12 else 16) / sqrt (2 * PI)) /\ is_rect gs F32 1 2 (fun _ _ => 0).
Proof.
  assert (C : @computes ones_platform sum_sq F32 2 (fun v => Sig 2 (fun i => v i * v i))).
  { intros v. unfold valf. pose proof (sum_sq_diff F32 2 v (fun _ => 0)) as H. etransitivity; [|exact (f_equal fst H)]. f_equal. }
  destruct (@mv_jacobians ones_platform sum_sq _ ex_loc ex_ls F32 2 1 _ _ 0%nat 1%nat 2%nat true (fun _ _ => 1) (fun _ _ => 1) (fun _ _ => 1) (fun _ _ => 1) (fun _ _ => 1) (fun _ _ => 1) C (ex_vec 3 4) (ex_vec 0 0)) as (gm & gs & E & R1 & R2); try (intros ? ? ? ?; reflexivity); [reflexivity|].
  exists gm, gs. split; [exact E|]. pose proof sqrt2pi. split; [eapply rect_ext; [|exact R1]|eapply rect_ext; [|exact R2]]; intros n k Hn Hk; cbv beta; unfold Sig; destruct k as [|[|k]]; [| |lia| | |lia]; unfold upd, gauss; cbn -[sqrt PI Rmult Rdiv]; rewrite ?rsum_cons, ?rsum_nil, exp_0; field; auto.
Qed.
(*@ex C68_example *)
Lemma est_example : exists jm js km ks,
  @pathwise_jacobians ones_platform sum_sq [ex_loc; ex_ls] BNormal 0%nat 1%nat = Ok [jm; js] /\ is_rect jm F32 1 2 (fun _ k => if (k =? 0)%nat then 8 else 10) /\ is_rect js F32 1 2 (fun _ k => if (k =? 0)%nat then 8 else 10) /\
  @score_function_jacobians ones_platform sum_sq [ex_loc; ex_ls] BNormal 0%nat 1%nat = Ok [km; ks] /\ is_rect km F32 1 2 (fun _ _ => 41) /\ is_rect ks F32 1 2 (fun _ _ => 0).
Proof.
  destruct (@pathwise ones_platform sum_sq _ _ ex_loc ex_ls F32 2 1 _ _ 0%nat (fun _ _ => 1) (sum_sq_diff F32 2) (ex_vec 3 4) (ex_vec 0 0)) as (jm & js & E & R1 & R2); [intros ? ? ? ?; reflexivity|].
  destruct (@score ones_platform sum_sq (fun v => Sig 2 (fun i => v i * v i)) ex_loc ex_ls F32 2 1 (fun i => if (i =? 0)%nat then 3 else 4) (fun i => if (i =? 0)%nat then 0 else 0) 0%nat (fun _ _ => 1)) as (km & ks & E' & R1' & R2'); [|exact (ex_vec 3 4)|exact (ex_vec 0 0)|intros ? ? ? ?; reflexivity|].
  { intros v. etransitivity; [apply (sum_sq_diff F32 2)|]. apply fd_ext; [reflexivity|]. unfold Sig. cbn. rewrite !rsum_cons, rsum_nil. ring. }
  exists jm, js, km, ks. split; [exact E|]. split; [eapply rect_ext; [|exact R1]|split; [eapply rect_ext; [|exact R2]|split; [exact E'|split; [eapply rect_ext; [|exact R1']|eapply rect_ext; [|exact R2']]]]];
    intros n k Hn Hk; cbv beta; unfold Sig; destruct k as [|[|k]]; try lia; unfold gauss; cbn -[Rmult Rdiv pow]; rewrite ?rsum_cons, ?rsum_nil, exp_0; field; auto.
Qed.
