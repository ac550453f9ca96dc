(** The control delta method (C58). *)
From Verif Require Export P_cv.
From Coq Require Import List Psatz Reals Qreals Lia ZArith.
Import ListNotations.
Open Scope R_scope.
(*@header
From Coq Require Import List ZArith.
Import ListNotations.
Open Scope R_scope.
*)

(** ** Specification *)
(** The second-order Taylor polynomial of phi at mu. *)
Definition taylor2 (D : nat) (phi : rvec -> R) (g : rvec -> rvec) (H : rvec -> rmat) (mu x : rvec) : R :=
  phi mu + Sig D (fun i => g mu i * (x i - mu i)) + Sig D (fun i => Sig D (fun j => (x i - mu i) * H mu i j * (x j - mu j))) / 2.
(** [grad] and [hess] return the derivatives of the function: g is the gradient of phi, the symmetric H
    its Hessian, T its third derivatives (the derivative of entry (i, j) of the Hessian along k). *)
Definition derivatives {P : Platform} (grad hess : (gt dual -> dual) -> gt dual -> gt dual) (f : gt dual -> dual) (D : nat) (phi : rvec -> R) (g : rvec -> rvec) (H : rvec -> rmat) (T : rvec -> nat -> nat -> nat -> R) : Prop :=
  (forall d, differentiates f d D phi g) /\
  (forall d v t, is_dvec (grad f (dpoint d D v t)) d D (g v) (fun i => Sig D (fun j => H v i j * t j))) /\
  (forall d v t, is_drect (hess f (dpoint d D v t)) d D D (H v) (fun i j => Sig D (fun k => T v i j k * t k))) /\
  (forall v i j, H v i j = H v j i).

Lemma delta_tangent D (g : rvec) (H : rmat) (T : nat -> nat -> nat -> R) (c m' w x' : rvec) : (forall i j, H i j = H j i) -> (forall i, x' i = w i + m' i) ->
  Sig D (fun i => g i * x' i) + Sig D (fun i => Sig D (fun j => H i j * c j) * x' i) + Sig D (fun k => Sig D (fun i => Sig D (fun j => c i * T i j k * c j)) * m' k) / 2 =
  Sig D (fun i => g i * m' i) + Sig D (fun i => w i * g i + c i * Sig D (fun j => H i j * m' j)) +
  Sig D (fun j => Sig D (fun i => w i * H i j + c i * Sig D (fun k => T i j k * m' k)) * c j + Sig D (fun i => c i * H i j) * w j) / 2.
Proof.
  intros Hs Hx.
  set (Q := fun u v : rvec => Sig D (fun i => u i * Sig D (fun j => H i j * v j))).
  assert (Qs : forall u v, Q u v = Q v u).
  { intros u v. unfold Q. transitivity (Sig D (fun i => Sig D (fun j => u i * H i j * v j))); [apply Sig_ext; intros; rewrite <- Sig_scal; apply Sig_ext; intros; ring|]. rewrite Sig_swap. apply Sig_ext. intros i _. rewrite <- Sig_scal. apply Sig_ext. intros j _. rewrite (Hs i j). ring. }
  assert (E1 : Sig D (fun i => Sig D (fun j => H i j * c j) * x' i) = Q w c + Q m' c).
  { unfold Q. rewrite <- Sig_add. apply Sig_ext. intros i _. rewrite Hx. ring. }
  assert (E2 : Sig D (fun i => w i * g i + c i * Sig D (fun j => H i j * m' j)) = Sig D (fun i => g i * w i) + Q c m').
  { unfold Q. rewrite <- Sig_add. apply Sig_ext. intros i _. ring. }
  assert (E3 : Sig D (fun i => g i * x' i) = Sig D (fun i => g i * m' i) + Sig D (fun i => g i * w i)).
  { rewrite <- Sig_add. apply Sig_ext. intros i _. rewrite Hx. ring. }
  assert (E4 : Sig D (fun k => Sig D (fun i => Sig D (fun j => c i * T i j k * c j)) * m' k) = Sig D (fun j => Sig D (fun i => c i * Sig D (fun k => T i j k * m' k)) * c j)).
  { transitivity (Sig D (fun k => Sig D (fun i => Sig D (fun j => c i * T i j k * c j * m' k)))).
    { apply Sig_ext. intros k _. rewrite <- Sig_scal_r. apply Sig_ext. intros i _. now rewrite <- Sig_scal_r. }
    rewrite Sig_swap. transitivity (Sig D (fun i => Sig D (fun j => Sig D (fun k => c i * T i j k * c j * m' k)))); [apply Sig_ext; intros i _; apply Sig_swap|]. rewrite Sig_swap. apply Sig_ext. intros j _. rewrite <- Sig_scal_r. apply Sig_ext. intros i _. rewrite <- Sig_scal, <- Sig_scal_r. apply Sig_ext. intros; ring. }
  assert (E5 : Sig D (fun j => Sig D (fun i => w i * H i j + c i * Sig D (fun k => T i j k * m' k)) * c j + Sig D (fun i => c i * H i j) * w j) = Q w c + Sig D (fun j => Sig D (fun i => c i * Sig D (fun k => T i j k * m' k)) * c j) + Q c w).
  { rewrite !Sig_add. rewrite (Sig_ext D (fun j => Sig D (fun i => w i * H i j + c i * Sig D (fun k => T i j k * m' k)) * c j) (fun j => Sig D (fun i => w i * H i j) * c j + Sig D (fun i => c i * Sig D (fun k => T i j k * m' k)) * c j)) by (intros j _; rewrite Sig_add; ring). rewrite Sig_add. f_equal; [f_equal|].
    - rewrite (Qs w c). unfold Q. apply Sig_ext. intros j _. rewrite Rmult_comm. f_equal. apply Sig_ext. intros i _. rewrite (Hs i j). ring.
    - rewrite (Qs c w). unfold Q. apply Sig_ext. intros j _. rewrite Rmult_comm. f_equal. apply Sig_ext. intros i _. rewrite (Hs i j). ring. }
  rewrite E1, E2, E3, E4, E5, (Qs w c), (Qs m' c). lra.
Qed.

Section DM.
  Context {P : Platform}.
  Notation xr := (XROps P). Notation dr := (DualOps P).
  Lemma dpoint_dvec d D v t : is_dvec (dpoint d D v t) d D v t.
  Proof.
    repeat split; [unfold twf; cbn; rewrite map_length, seq_length; lia|]. intros i Hi. unfold tget. cbn [shp dat dpoint ravel prodn fold_right]. rewrite Nat.mul_1_r, Nat.add_0_r. apply nth_error_nth. rewrite nth_error_map, (nth_error_nth' _ 0%nat) by (rewrite seq_length; exact Hi). now rewrite seq_nth by exact Hi.
  Qed.
  Lemma vdot_d (u v : gt dual) d d' D a a' b b' : is_dvec u d D a a' -> is_dvec v d' D b b' -> @vdot dr u v = fd (Sig D (fun i => a i * b i)) (Sig D (fun i => a' i * b i + a i * b' i)).
  Proof.
    intros Hu Hv. rewrite (ddim _ _ _ _ _ Hu), (ddim _ _ _ _ _ Hv). unfold vdot. cbn [dpoint dt dat]. rewrite (map2_map_same (@fmul dr d) _ _ (seq 0 D)).
    etransitivity; [|apply (@fsum_sig P d)]. f_equal.
  Qed.
  Lemma vecmat_d (v m : gt dual) d d' D a a' B B' : is_dvec v d D a a' -> is_drect m d' D D B B' -> is_dvec (vecmat v m) d D (fun j => Sig D (fun i => a i * B i j)) (fun j => Sig D (fun i => a' i * B i j + a i * B' i j)).
  Proof.
    intros (Dv & Sv & Wv & Gv) (Dm & Sm & Wm & Gm). unfold vecmat. dx. rewrite Sm, Dv. cbn [nth]. repeat split; [apply tab_wf|]. intros j Hj. etransitivity; [apply (@tget_tab dr); cbn; auto|]. cbn [hd].
    etransitivity; [|apply (@fsum_sig P d)]. f_equal. apply map_ext_in. intros i Hi. apply In_seq0 in Hi. rewrite Gv, Gm by assumption. apply d_mul.
  Qed.
  Lemma delta_val grad hess f D phi g H T d d' mu m' S x x' : derivatives grad hess f D phi g H T ->
    cv_value (control_delta_method grad hess f) (dpoint d D mu m' :: S) (dpoint d' D x x') tt =
    fd (taylor2 D phi g H mu x)
       (Sig D (fun i => (g mu i + Sig D (fun j => H mu i j * (x j - mu j))) * x' i) + Sig D (fun k => Sig D (fun i => Sig D (fun j => (x i - mu i) * T mu i j k * (x j - mu j))) * m' k) / 2).
  Proof.
    intros (Hf & Hg & Hh & Hsym). cbn [control_delta_method cv_value nth].
    destruct (dbin_vv (@fsub dr) (dpoint d' D x x') (dpoint d D mu m') d d' D mu m' x x' (fun i => x i - mu i) (fun i => x' i - m' i) (dpoint_dvec _ _ _ _) (dpoint_dvec _ _ _ _)) as (c & Ec & Hc); [reflexivity|].
    dx. rewrite Ec. clear Ec. pose proof (Hg d mu m') as Hg'. pose proof (Hh d mu m') as Hh'. pose proof Hc as (Dc & _). dx. rewrite Dc. 
    rewrite (vdot_d _ _ _ _ _ _ _ _ _ Hc Hg'). rewrite (vdot_d _ _ _ _ _ _ _ _ _ (vecmat_d _ _ _ _ _ _ _ _ _ Hc Hh') Hc). rewrite Hf.
    rewrite d_add. unfold fofZ. rewrite d_lit, Q2R_Z. rewrite d_div by lra. rewrite d_add.
    set (c0 := fun i => x i - mu i). apply fd_ext.
    - unfold taylor2. f_equal; [f_equal; apply Sig_ext; intros; ring|]. f_equal. rewrite Sig_swap. apply Sig_ext. intros i _. rewrite <- Sig_scal_r. reflexivity.
    - pose proof (delta_tangent D (g mu) (H mu) (T mu) c0 m' (fun i => x' i - m' i) x' (Hsym mu)) as E. cbv beta in E. unfold c0 in *. specialize (E ltac:(intros; ring)).
      rewrite (Sig_ext D (fun i => (g mu i + Sig D (fun j => H mu i j * (x j - mu j))) * x' i) (fun i => g mu i * x' i + Sig D (fun j => H mu i j * (x j - mu j)) * x' i)) by (intros; ring). rewrite (Sig_add D (fun i => g mu i * x' i)). rewrite E. lra.
  Qed.
  Lemma ddiag (m : gt dual) d D B B' : is_drect m d D D B B' -> is_dvec (tab (dt m) [nth 0 (shp m) 0%nat] (fun o => @tget dr m [hd 0%nat o; hd 0%nat o])) d D (fun i => B i i) (fun i => B' i i).
  Proof. intros (Dm & Sm & Wm & Gm). dx. rewrite Sm, Dm. cbn [nth]. repeat split; [apply tab_wf|]. intros i Hi. etransitivity; [apply (@tget_tab dr); cbn; auto|]. now apply Gm. Qed.
  Lemma expected_val grad hess f D phi g H T d mu m' s s' : derivatives grad hess f D phi g H T ->
    cv_expected (control_delta_method grad hess f) [dpoint d D mu m'; dpoint d D s s'] tt =
    fd (phi mu + Sig D (fun i => exp (s i) ^ 2 * H mu i i) / 2)
       (Sig D (fun i => g mu i * m' i) + (Sig D (fun i => 2 * exp (s i) ^ 2 * H mu i i * s' i) + Sig D (fun i => exp (s i) ^ 2 * Sig D (fun k => T mu i i k * m' k))) / 2).
  Proof.
    intros (Hf & Hg & Hh & Hsym). cbn [control_delta_method cv_expected nth].
    assert (He : is_dvec (@un dr (@fexp dr) (dpoint d D s s')) d D (fun i => exp (s i)) (fun i => s' i * exp (s i))) by (apply (dmap_v _ _ _ _ _ _ _ _ (dpoint_dvec d D s s')); intros; apply d_exp).
    assert (Hv : is_dvec (@tsquare dr (@un dr (@fexp dr) (dpoint d D s s'))) d D (fun i => exp (s i) ^ 2) (fun i => 2 * exp (s i) ^ 2 * s' i)).
    { apply (dmap_v _ _ _ _ _ _ _ _ He). intros i Hi dd. rewrite d_mul. apply fd_ext; ring. }
    pose proof (ddiag _ _ _ _ _ (Hh d mu m')) as Hd.
    destruct (dbin_vv (@fmul dr) _ _ d d D _ _ _ _ (fun i => exp (s i) ^ 2 * H mu i i) (fun i => 2 * exp (s i) ^ 2 * s' i * H mu i i + exp (s i) ^ 2 * Sig D (fun k => T mu i i k * m' k)) Hv Hd) as (c & Ec & Hc); [intros; apply d_mul|].
    dx. rewrite Ec. clear Ec. rewrite (ddim _ _ _ _ _ Hc). unfold tsum. cbn [dpoint dt dat]. pose proof (@fsum_sig P (promote d d) D (fun i => exp (s i) ^ 2 * H mu i i) (fun i => 2 * exp (s i) ^ 2 * s' i * H mu i i + exp (s i) ^ 2 * Sig D (fun k => T mu i i k * m' k))) as E. dx. rewrite E. fold (dpoint d D mu m'). rewrite Hf.
    unfold fofZ. rewrite d_lit, Q2R_Z. rewrite d_div by lra. rewrite d_add. apply fd_ext; [reflexivity|]. rewrite <- Sig_add. rewrite (Sig_ext D (fun i => 2 * exp (s i) ^ 2 * s' i * H mu i i + exp (s i) ^ 2 * Sig D (fun k => T mu i i k * m' k)) (fun i => 2 * exp (s i) ^ 2 * H mu i i * s' i + exp (s i) ^ 2 * Sig D (fun k => T mu i i k * m' k))) by (intros; ring). lra.
  Qed.
  Lemma basis2 (loc ls : gt XR) d D mu s k : is_vec loc d D mu -> is_vec ls d D s -> (k < D)%nat ->
    @basis P [loc; ls] 0 [k] = [dpoint d D mu (idm k); dpoint d D s (fun _ => 0)] /\ @basis P [loc; ls] 1 [k] = [dpoint d D mu (fun _ => 0); dpoint d D s (idm k)].
  Proof.
    intros Hl Hs Hk. split; unfold basis; cbn [length seq map2]; f_equal; [|f_equal| |f_equal]; apply (@ddim P).
    - exact (basis_vec loc 0 0 k D d mu Hl Hk).
    - exact (basis_vec ls 1 0 k D d s Hs Hk).
    - exact (basis_vec loc 0 1 k D d mu Hl Hk).
    - exact (basis_vec ls 1 1 k D d s Hs Hk).
  Qed.
  Lemma lift2 (loc ls : gt XR) d D mu s : is_vec loc d D mu -> is_vec ls d D s -> map lift [loc; ls] = [dpoint d D mu (fun _ => 0); dpoint d D s (fun _ => 0)].
  Proof. intros Hl Hs. cbn [map]. f_equal; [|f_equal]; apply (@ddim P); now apply lift_vec. Qed.
  Lemma lift_slice (t : gt XR) d N D A n : is_rect t d N D A -> (n < N)%nat -> @slice0 dr (lift t) n = dpoint d D (A n) (fun _ => 0).
  Proof.
    intros (Dt & St & Wt & Gt) Hn. apply (@ddim P). unfold slice0. change (shp (lift t)) with (shp t). change (dt (lift t)) with (dt t). rewrite St, Dt. cbn [tl]. repeat split; [apply tab_wf|]. intros i Hi. etransitivity; [apply (@tget_tab dr); cbn; auto|].
    unfold tget, lift, emap. cbn [shp dat]. apply nth_error_nth. rewrite nth_error_map. pose proof (@tget_nth xr t [n; i] Wt) as E. nx. rewrite St in E. specialize (E (conj Hn (conj Hi I))). rewrite St, E. rewrite (Gt P) by assumption. reflexivity.
  Qed.
  (** The control variate as a function of the sample, parameters fixed. *)
  Lemma delta_fn grad hess f D phi g H T (loc ls : gt XR) d d' mu s : derivatives grad hess f D phi g H T -> is_vec loc d D mu -> is_vec ls d D s ->
    differentiates (fun x => cv_value (control_delta_method grad hess f) (map lift [loc; ls]) x tt) d' D (taylor2 D phi g H mu) (fun x i => g mu i + Sig D (fun j => H mu i j * (x j - mu j))).
  Proof.
    intros Hd Hl Hs v t. rewrite (lift2 loc ls d D mu s Hl Hs). rewrite (delta_val grad hess f D phi g H T d d' mu _ _ v t Hd). apply fd_ext; [reflexivity|].
    rewrite (Sig_ext D (fun k => Sig D (fun i => Sig D (fun j => (v i - mu i) * T mu i j k * (v j - mu j))) * 0) (fun _ => 0)) by (intros; ring). rewrite Sig_zero. lra.
  Qed.
  Lemma differentiates_computes (f : gt dual -> dual) d D phi g : differentiates f d D phi g -> computes f d D phi.
  Proof. intros Hf v0. unfold valf. etransitivity; [|exact (f_equal fst (Hf v0 (fun _ => 0)))]. f_equal. f_equal. unfold lift, point, dpoint, emap. cbn [dat dt shp]. f_equal. rewrite map_map. reflexivity. Qed.
  Lemma differentiates_const (f : gt dual -> dual) d D phi g v : differentiates f d D phi g -> f (dpoint d D v (fun _ => 0)) = fd (phi v) 0.
  Proof. intros Hf. rewrite Hf. apply fd_ext; [reflexivity|]. rewrite (Sig_ext D _ (fun _ => 0)) by (intros; ring). apply Sig_zero. Qed.
  (** Running control_variates_jacobians with the delta method, for an estimator whose results are known. *)
  Lemma delta_jac grad hess f D phi g H T (est : estimator) (loc ls : gt XR) d N mu s rng z (fm fs cm cs : gt XR) A1 A2 B1 B2 :
    let D1 := promote (@defdt xr) d in
    let x := gauss mu s z in
    derivatives grad hess f D phi g H T -> is_vec loc d D mu -> is_vec ls d D s -> draws_are (p_knormal P rng (@defdt xr) [N; D]) N D z -> (0 < N)%nat ->
    est f [loc; ls] BNormal rng N = Ok [fm; fs] -> is_rect fm D1 N D A1 -> is_rect fs D1 N D A2 ->
    est (fun x => cv_value (control_delta_method grad hess f) (map lift [loc; ls]) x tt) [loc; ls] BNormal rng N = Ok [cm; cs] -> is_rect cm D1 N D B1 -> is_rect cs D1 N D B2 ->
    exists jm js d1 d2, control_variates_jacobians f (control_delta_method grad hess) est [loc; ls] BNormal rng N tt false 20 = Ok ([jm; js], tt) /\
      is_rect jm d1 N D (fun n k => A1 n k - B1 n k + g mu k - (mean_of N (fun m => Sig D (fun i => Sig D (fun j => (x m i - mu i) * T mu i j k * (x m j - mu j)))) - Sig D (fun i => exp (s i) ^ 2 * T mu i i k)) / 2) /\
      is_rect js d2 N D (fun n k => A2 n k - B2 n k + exp (s k) ^ 2 * H mu k k).
  Proof.
    intros D1 x Hd Hl Hs Hz HN Ef R1 R2 Ec R3 R4.
    destruct (gauss_samples loc ls d D N mu s rng z Hl Hs Hz) as (dist & smp & Ed & Es & Hhd & Rsmp).
    set (th := fun m k => Sig D (fun i => Sig D (fun j => (x m i - mu i) * T mu i j k * (x m j - mu j)))).
    destruct (@cv_algebra P _ f (control_delta_method grad hess) est [loc; ls] BNormal rng N D 20 tt tt dist smp [fm; fs] [cm; cs] false (fun _ => 1) (fun _ => D1) (fun _ => D1)
      (fun i => match i with 0%nat => A1 | _ => A2 end) (fun i => match i with 0%nat => B1 | _ => B2 end) (fun n => taylor2 D phi g H mu (x n)) (fun i n k => match i with 0%nat => th n k / 2 | _ => 0 end)
      (phi mu + Sig D (fun i => exp (s i) ^ 2 * H mu i i) / 2) (fun i k => match i with 0%nat => g mu k + Sig D (fun i => exp (s i) ^ 2 * T mu i i k) / 2 | _ => exp (s k) ^ 2 * H mu k k end)) as (js & Ejs & Ljs & Hjs); auto.
    - discriminate.
    - intros p Hp. now apply (@basis2_in P loc ls d D mu s).
    - intros [|[|i]] Hi; cbn in Hi; [exists fm|exists fs|lia]; auto.
    - intros [|[|i]] Hi; cbn in Hi; [exists cm|exists cs|lia]; auto.
    - intros i n k Hi Hn Hk. rewrite (lift_slice _ _ _ _ _ _ Rsmp Hn). destruct (basis2 loc ls d D mu s k Hl Hs Hk) as (E0 & E1).
      destruct i as [|[|i]]; cbn in Hi; [rewrite E0|rewrite E1|lia]; rewrite (delta_val grad hess f D phi g H T _ _ _ _ _ _ _ Hd); (apply fd_ext; [reflexivity|]).
      + rewrite (Sig_ext D _ (fun _ => 0)) by (intros; ring). rewrite Sig_zero. rewrite (Sig_idm D (fun k => Sig D (fun i => Sig D (fun j => (gauss mu s z n i - mu i) * T mu i j k * (gauss mu s z n j - mu j)))) k Hk). unfold th, x. lra.
      + rewrite (Sig_ext D (fun i => _ * 0) (fun _ => 0)) by (intros; ring). rewrite Sig_zero. rewrite (Sig_ext D (fun k => _ * 0) (fun _ => 0)) by (intros; ring). rewrite Sig_zero. lra.
    - intros i k Hi Hk. destruct (basis2 loc ls d D mu s k Hl Hs Hk) as (E0 & E1). destruct i as [|[|i]]; cbn in Hi; [rewrite E0|rewrite E1|lia]; rewrite (expected_val grad hess f D phi g H T _ _ _ _ _ Hd); (apply fd_ext; [reflexivity|]).
      + rewrite (Sig_idm D (g mu) k Hk). rewrite (Sig_ext D (fun i => _ * 0) (fun _ => 0)) by (intros; ring). rewrite Sig_zero. rewrite (Sig_ext D (fun i => exp (s i) ^ 2 * Sig D (fun k0 => T mu i i k0 * idm k k0)) (fun i => exp (s i) ^ 2 * T mu i i k)) by (intros i _; now rewrite (Sig_idm D (T mu i i) k Hk)). lra.
      + rewrite (Sig_ext D (fun i => g mu i * 0) (fun _ => 0)) by (intros; ring). rewrite Sig_zero. rewrite (Sig_idm D (fun i => 2 * exp (s i) ^ 2 * H mu i i) k Hk).
        rewrite (Sig_ext D (fun i => exp (s i) ^ 2 * Sig D (fun k0 => T mu i i k0 * 0)) (fun _ => 0)); [rewrite Sig_zero; lra|]. intros i _. rewrite (Sig_ext D _ (fun _ => 0)) by (intros; ring). rewrite Sig_zero. ring.
    - destruct js as [|jm [|js [|? ?]]]; try discriminate Ljs. destruct (Hjs 0%nat jm eq_refl) as (d1 & H1). destruct (Hjs 1%nat js eq_refl) as (d2 & H2). exists jm, js, d1, d2. split; [exact Ejs|].
      split; (eapply rect_ext; [|eassumption]); intros n k _ _; cbv beta.
      + rewrite (mean_ext N (fun m => th m k / 2) (fun m => / 2 * th m k)) by (intros; lra). rewrite (mean_scal N (/ 2) (fun m => th m k)). unfold th. lra.
      + rewrite mean_const by exact HN. ring.
  Qed.
End DM.

(*@ C58_delta : control_delta_method, for every twice differentiable function phi (with gradient g and symmetric Hessian H, given by jax.grad and jax.hessian), every mean, log-scale and sample: the control variate is the second-order Taylor polynomial of phi at the mean, evaluated at the sample, and its closed-form expectation is phi(mu) + 1/2 sum sigma_i^2 H_ii(mu). *)
Lemma delta_values : forall `{P : Platform} (grad hess : (gt dual -> dual) -> gt dual -> gt dual) (f : gt dual -> dual) (D : nat) (phi : rvec -> R) (g : rvec -> rvec) (H : rvec -> rmat) (T : rvec -> nat -> nat -> nat -> R) (loc ls x : gt XR) (d dx : fdt) (mu s v : rvec),
  derivatives grad hess f D phi g H T -> is_vec loc d D mu -> is_vec ls d D s -> is_vec x dx D v ->
  fst (cv_value (control_delta_method grad hess f) (map lift [loc; ls]) (lift x) tt) = Fin (phi mu + Sig D (fun i => g mu i * (v i - mu i)) + Sig D (fun i => Sig D (fun j => (v i - mu i) * H mu i j * (v j - mu j))) / 2) /\
  fst (cv_expected (control_delta_method grad hess f) (map lift [loc; ls]) tt) = Fin (phi mu + Sig D (fun i => exp (s i) ^ 2 * H mu i i) / 2).
Proof.
  intros P grad hess f D phi g H T loc ls x d dx mu s v Hd Hl Hs Hx. rewrite (lift2 loc ls d D mu s Hl Hs). split.
  - rewrite (ddim _ _ _ _ _ (lift_vec x D dx v Hx)). rewrite (delta_val grad hess f D phi g H T _ _ _ _ _ _ _ Hd). reflexivity.
  - rewrite (expected_val grad hess f D phi g H T _ _ _ _ _ Hd). reflexivity.
Qed.

Lemma lin_sig (E : (rvec -> R) -> R) D (h : nat -> rvec -> R) : (forall a b u v, E (fun z => a * u z + b * v z) = a * E u + b * E v) -> (forall u v, (forall z, u z = v z) -> E u = E v) -> E (fun z => Sig D (fun i => h i z)) = Sig D (fun i => E (h i)).
Proof.
  intros L X. induction D as [|D IH].
  - pose proof (L 0 0 (fun _ => 0) (fun _ => 0)) as E0. rewrite (X _ (fun _ => 0)) in E0 by (intros; ring). assert (Z0 : forall h0, Sig 0 h0 = 0) by (intros; unfold Sig; cbn; apply rsum_nil). rewrite Z0. rewrite (X (fun z => Sig 0 (fun i => h i z)) (fun _ => 0)) by (intros; apply Z0). lra.
  - rewrite Sig_S, <- IH. rewrite (X _ (fun z => 1 * Sig D (fun i => h i z) + 1 * h D z)) by (intros; rewrite Sig_S; ring). rewrite L. ring.
Qed.

(*@ C58_delta_expected : The closed-form expectation is the expectation of the control variate: for every linear functional E on functions of z with E 1 = 1, E z_i = 0 and E z_i z_j = [i = j] (the moments of a standard normal vector), E of the control variate at mu + sigma z is the returned expectation. *)
Lemma delta_expected : forall `{P : Platform} (grad hess : (gt dual -> dual) -> gt dual -> gt dual) (f : gt dual -> dual) (D : nat) (phi : rvec -> R) (g : rvec -> rvec) (H : rvec -> rmat) (T : rvec -> nat -> nat -> nat -> R) (loc ls : gt XR) (d dx : fdt) (mu s : rvec) (E : (rvec -> R) -> R),
  derivatives grad hess f D phi g H T -> is_vec loc d D mu -> is_vec ls d D s ->
  (forall a b u v, E (fun z => a * u z + b * v z) = a * E u + b * E v) -> (forall u v, (forall z, u z = v z) -> E u = E v) ->
  E (fun _ => 1) = 1 -> (forall i, (i < D)%nat -> E (fun z => z i) = 0) -> (forall i j, (i < D)%nat -> (j < D)%nat -> E (fun z => z i * z j) = if (i =? j)%nat then 1 else 0) ->
  exists h e, (forall z, fst (cv_value (control_delta_method grad hess f) (map lift [loc; ls]) (lift (point dx D (fun i => mu i + exp (s i) * z i))) tt) = Fin (h z)) /\
    fst (cv_expected (control_delta_method grad hess f) (map lift [loc; ls]) tt) = Fin e /\ E h = e.
Proof.
  intros P grad hess f D phi g H T loc ls d dx mu s E Hd Hl Hs L X E0 E1 E2.
  exists (fun z => taylor2 D phi g H mu (fun i => mu i + exp (s i) * z i)), (phi mu + Sig D (fun i => exp (s i) ^ 2 * H mu i i) / 2).
  assert (Hp : forall v, is_vec (point dx D v) dx D v).
  { intros v. apply (@vec_intro P); [reflexivity|reflexivity|unfold twf; cbn; rewrite map_length, seq_length; lia|]. intros i Hi. unfold tget. cbn [shp dat point ravel prodn fold_right]. rewrite Nat.mul_1_r, Nat.add_0_r. apply nth_error_nth. rewrite nth_error_map, (nth_error_nth' _ 0%nat) by (rewrite seq_length; exact Hi). now rewrite seq_nth by exact Hi. }
  split; [|split].
  - intros z. exact (proj1 (@delta_values P grad hess f D phi g H T loc ls _ d dx mu s _ Hd Hl Hs (Hp (fun i => mu i + exp (s i) * z i)))).
  - exact (proj2 (@delta_values P grad hess f D phi g H T loc ls _ d dx mu s _ Hd Hl Hs (Hp mu))).
  - unfold taylor2.
    rewrite (X _ (fun z => 1 * (phi mu * 1 + 1 * Sig D (fun i => (g mu i * exp (s i)) * z i + 0 * 0)) + / 2 * Sig D (fun i => Sig D (fun j => (exp (s i) * H mu i j * exp (s j)) * (z i * z j) + 0 * 0)))).
    2: { intros z. rewrite Rmult_1_l, Rmult_1_r, Rmult_1_l. unfold Rdiv. rewrite (Rmult_comm _ (/ 2)). f_equal; [f_equal; apply Sig_ext; intros; ring|]. f_equal. apply Sig_ext. intros i _. apply Sig_ext. intros j _. ring. }
    rewrite L, L, E0. rewrite (lin_sig E D (fun i z => g mu i * exp (s i) * z i + 0 * 0) L X). rewrite (lin_sig E D (fun i z => Sig D (fun j => (exp (s i) * H mu i j * exp (s j)) * (z i * z j) + 0 * 0)) L X).
    rewrite (Sig_ext D (fun i => E (fun z => g mu i * exp (s i) * z i + 0 * 0)) (fun _ => 0)); [rewrite Sig_zero|]. 2: { intros i Hi. rewrite (L _ 0 (fun z => z i) (fun _ => 0)), E1 by exact Hi. ring. }
    rewrite (Sig_ext D _ (fun i => exp (s i) ^ 2 * H mu i i)); [lra|]. intros i Hi. rewrite (lin_sig E D (fun j z => (exp (s i) * H mu i j * exp (s j)) * (z i * z j) + 0 * 0) L X).
    rewrite (Sig_ext D _ (fun j => exp (s i) * H mu i j * exp (s j) * idm i j)).
    + rewrite (Sig_idm D (fun j => exp (s i) * H mu i j * exp (s j)) i Hi). ring.
    + intros j Hj. rewrite (L _ 0 (fun z => z i * z j) (fun _ => 0)), E2 by assumption. unfold idm. ring.
Qed.

(*@ C58_delta_pathwise : The delta method with the pathwise estimator, for every function with third derivatives T, all sizes and draws: entry [n, k] for the mean is grad_k(x_n) minus the linearised gradient g_k(mu) + sum_j H_kj (x_nj - mu_j), plus g_k(mu), minus half the difference between the sample mean and the exact expectation of the second-order form of T; for the log-scale it is the same gradient difference times sigma_k z_nk, plus sigma_k^2 H_kk. *)
Lemma delta_pathwise : forall `{P : Platform} (grad hess : (gt dual -> dual) -> gt dual -> gt dual) (f : gt dual -> dual) (D N : nat) (phi : rvec -> R) (g : rvec -> rvec) (H : rvec -> rmat) (T : rvec -> nat -> nat -> nat -> R) (loc ls : gt XR) (d : fdt) (mu s : rvec) (rng : p_key P) (z : nat -> nat -> R),
  let x := gauss mu s z in
  derivatives grad hess f D phi g H T -> is_vec loc d D mu -> is_vec ls d D s -> draws_are (p_knormal P rng (@defdt (XROps P)) [N; D]) N D z -> (0 < N)%nat ->
  exists jm js d1 d2, control_variates_jacobians f (control_delta_method grad hess) pathwise_jacobians [loc; ls] BNormal rng N tt false 20 = Ok ([jm; js], tt) /\
    is_rect jm d1 N D (fun n k => g (x n) k - (g mu k + Sig D (fun j => H mu k j * (x n j - mu j))) + g mu k
      - (mean_of N (fun m => Sig D (fun i => Sig D (fun j => (x m i - mu i) * T mu i j k * (x m j - mu j)))) - Sig D (fun i => exp (s i) ^ 2 * T mu i i k)) / 2) /\
    is_rect js d2 N D (fun n k => (g (x n) k - (g mu k + Sig D (fun j => H mu k j * (x n j - mu j)))) * (exp (s k) * z n k) + exp (s k) ^ 2 * H mu k k).
Proof.
  intros P grad hess f D N phi g H T loc ls d mu s rng z x Hd Hl Hs Hz HN.
  destruct (@pathwise P f phi g loc ls d D N mu s rng z (proj1 Hd _) Hl Hs Hz) as (fm & fs & Ef & R1 & R2).
  destruct (@pathwise P _ _ _ loc ls d D N mu s rng z (delta_fn grad hess f D phi g H T loc ls d _ mu s Hd Hl Hs) Hl Hs Hz) as (cm & cs & Ec & R3 & R4).
  destruct (delta_jac grad hess f D phi g H T pathwise_jacobians loc ls d N mu s rng z fm fs cm cs _ _ _ _ Hd Hl Hs Hz HN Ef R1 R2 Ec R3 R4) as (jm & js & d1 & d2 & E & Q1 & Q2).
  exists jm, js, d1, d2. split; [exact E|]. split; [exact Q1|]. eapply rect_ext; [|exact Q2]. intros n k _ _. cbv beta. fold x. ring.
Qed.

(** A quadratic function with symmetric matrix Q. *)
Definition quadratic (D : nat) (a : R) (b : rvec) (Q : rmat) (v : rvec) : R := a + Sig D (fun i => b i * v i) + Sig D (fun i => Sig D (fun j => v i * Q i j * v j)) / 2.
Lemma quadratic_taylor D a b Q mu x : (forall i j, Q i j = Q j i) -> taylor2 D (quadratic D a b Q) (fun v i => b i + Sig D (fun j => Q i j * v j)) (fun _ => Q) mu x = quadratic D a b Q x.
Proof.
  intros Hs. unfold taylor2, quadratic.
  set (B := fun u v : rvec => Sig D (fun i => Sig D (fun j => u i * Q i j * v j))).
  assert (Bs : B mu x = B x mu). { unfold B. rewrite Sig_swap. apply Sig_ext. intros i _. apply Sig_ext. intros j _. rewrite (Hs j i). ring. }
  assert (E1 : Sig D (fun i => (b i + Sig D (fun j => Q i j * mu j)) * (x i - mu i)) = Sig D (fun i => b i * x i) - Sig D (fun i => b i * mu i) + B x mu - B mu mu).
  { transitivity (Sig D (fun i => b i * x i) + (-1) * Sig D (fun i => b i * mu i) + B x mu + (-1) * B mu mu); [|ring]. rewrite <- !Sig_scal. unfold B. rewrite <- (Sig_scal D (-1) (fun i => Sig D (fun j => mu i * Q i j * mu j))), <- !Sig_add. apply Sig_ext. intros i _.
    replace (Sig D (fun j => x i * Q i j * mu j)) with (x i * Sig D (fun j => Q i j * mu j)) by (rewrite <- Sig_scal; apply Sig_ext; intros; ring). replace (Sig D (fun j => mu i * Q i j * mu j)) with (mu i * Sig D (fun j => Q i j * mu j)) by (rewrite <- Sig_scal; apply Sig_ext; intros; ring). ring. }
  assert (E2 : Sig D (fun i => Sig D (fun j => (x i - mu i) * Q i j * (x j - mu j))) = B x x - B x mu - B mu x + B mu mu).
  { transitivity (B x x + (-1) * B x mu + (-1) * B mu x + B mu mu); [|ring]. unfold B. rewrite <- !Sig_scal, <- !Sig_add. apply Sig_ext. intros i _. rewrite <- !Sig_scal, <- !Sig_add. apply Sig_ext. intros j _. ring. }
  rewrite E1, E2, Bs. fold (B mu mu) (B x x). lra.
Qed.

(*@ C58_delta_exact : For a quadratic function a + b.v + 1/2 v.Qv the delta method removes all variance: with the pathwise, the score-function and the measure-valued estimator (coupled or not), whatever is drawn, every row of the jacobian for the mean is b + Q mu and every row of the one for the log-scale is sigma_k^2 Q_kk, the exact gradient of the expectation. *)
Lemma delta_exact : forall `{P : Platform} (grad hess : (gt dual -> dual) -> gt dual -> gt dual) (f : gt dual -> dual) (D N : nat) (a : R) (b : rvec) (Q : rmat) (coupling : bool) (est : estimator) (loc ls : gt XR) (d : fdt) (mu s : rvec) (rng pos neg : p_key P) (z w w' m u z' : nat -> nat -> R),
  derivatives grad hess f D (quadratic D a b Q) (fun v i => b i + Sig D (fun j => Q i j * v j)) (fun _ => Q) (fun _ _ _ _ => 0) ->
  is_vec loc d D mu -> is_vec ls d D s -> (0 < N)%nat ->
  draws_are (p_knormal P rng (@defdt (XROps P)) [N; D]) N D z -> p_ksplit P rng 2 = [pos; neg] -> draws_are (p_kdraw P LWeibull pos [N; D]) N D w -> draws_are (p_kdraw P LWeibull (if coupling then pos else neg) [N; D]) N D w' -> draws_are (p_kdraw P LMaxwell pos [N; D]) N D m ->
  (if coupling then draws_are (p_kdraw P LUniform neg [N; D]) N D u else draws_are (p_knormal P neg (@defdt (XROps P)) [N; D]) N D z') ->
  (est = pathwise_jacobians \/ est = score_function_jacobians \/ est = measure_valued_jacobians coupling) ->
  exists jm js d1 d2, control_variates_jacobians f (control_delta_method grad hess) est [loc; ls] BNormal rng N tt false 20 = Ok ([jm; js], tt) /\
    is_rect jm d1 N D (fun _ k => b k + Sig D (fun j => Q k j * mu j)) /\ is_rect js d2 N D (fun _ k => exp (s k) ^ 2 * Q k k).
Proof.
  intros P grad hess f D N a b Q coupling est loc ls d mu s rng pos neg z w w' m u z' Hd Hl Hs HN Hz Hk Hw Hw' Hm Hv He.
  set (phi := quadratic D a b Q) in *. set (g := fun v i => b i + Sig D (fun j => Q i j * v j)) in *. set (D1 := promote (@defdt (XROps P)) d).
  assert (Hsym : forall i j, Q i j = Q j i) by (intros i j; apply (proj2 (proj2 (proj2 Hd)) (fun _ => 0))).
  pose proof (proj1 Hd D1) as Hf.
  assert (Hc : differentiates (fun x => cv_value (control_delta_method grad hess f) (map lift [loc; ls]) x tt) D1 D phi g).
  { intros v t. etransitivity; [apply (delta_fn grad hess f D _ _ _ _ loc ls d D1 mu s Hd Hl Hs)|]. apply fd_ext; [apply (quadratic_taylor D a b Q mu v Hsym)|]. apply Sig_ext. intros i _. f_equal. unfold g.
    transitivity (b i + (Sig D (fun j => Q i j * mu j) + Sig D (fun j => Q i j * (v j - mu j)))); [ring|]. rewrite <- Sig_add. f_equal. apply Sig_ext. intros; ring. }
  assert (Hest : exists fm fs cm cs A1 A2, est f [loc; ls] BNormal rng N = Ok [fm; fs] /\ is_rect fm D1 N D A1 /\ is_rect fs D1 N D A2 /\
    est (fun x => cv_value (control_delta_method grad hess f) (map lift [loc; ls]) x tt) [loc; ls] BNormal rng N = Ok [cm; cs] /\ is_rect cm D1 N D A1 /\ is_rect cs D1 N D A2).
  { destruct He as [->|[->| ->]].
    - destruct (@pathwise P f phi g loc ls d D N mu s rng z Hf Hl Hs Hz) as (fm & fs & Ef & R1 & R2). destruct (@pathwise P _ phi g loc ls d D N mu s rng z Hc Hl Hs Hz) as (cm & cs & Ec & R3 & R4). do 6 eexists. split; [exact Ef|]. split; [exact R1|]. split; [exact R2|]. split; [exact Ec|]. split; [exact R3|exact R4].
    - destruct (@score P f phi loc ls d D N mu s rng z (fun v => differentiates_const _ _ _ _ _ v Hf) Hl Hs Hz) as (fm & fs & Ef & R1 & R2). destruct (@score P _ phi loc ls d D N mu s rng z (fun v => differentiates_const _ _ _ _ _ v Hc) Hl Hs Hz) as (cm & cs & Ec & R3 & R4). do 6 eexists. split; [exact Ef|]. split; [exact R1|]. split; [exact R2|]. split; [exact Ec|]. split; [exact R3|exact R4].
    - destruct (@mv_jacobians P f phi loc ls d D N mu s rng pos neg coupling z w w' m u z' (differentiates_computes _ _ _ _ _ Hf) Hl Hs Hk Hz Hw Hw' Hm Hv) as (fm & fs & Ef & R1 & R2). destruct (@mv_jacobians P _ phi loc ls d D N mu s rng pos neg coupling z w w' m u z' (differentiates_computes _ _ _ _ _ Hc) Hl Hs Hk Hz Hw Hw' Hm Hv) as (cm & cs & Ec & R3 & R4). do 6 eexists. split; [exact Ef|]. split; [exact R1|]. split; [exact R2|]. split; [exact Ec|]. split; [exact R3|exact R4]. }
  destruct Hest as (fm & fs & cm & cs & A1 & A2 & Ef & R1 & R2 & Ec & R3 & R4).
  destruct (delta_jac grad hess f D phi g _ _ est loc ls d N mu s rng z fm fs cm cs _ _ _ _ Hd Hl Hs Hz HN Ef R1 R2 Ec R3 R4) as (jm & js & d1 & d2 & E & Q1 & Q2).
  exists jm, js, d1, d2. split; [exact E|]. split; [eapply rect_ext; [|exact Q1]|eapply rect_ext; [|exact Q2]]; intros n k _ _; cbv beta; [|ring].
  rewrite (Sig_ext D (fun i => exp (s i) ^ 2 * 0) (fun _ => 0)) by (intros; ring). rewrite Sig_zero. rewrite (mean_ext N _ (fun _ => 0)); [rewrite mean_const by exact HN; unfold g; lra|].
  intros m0 _. rewrite (Sig_ext D _ (fun _ => 0)); [apply Sig_zero|]. intros i _. rewrite (Sig_ext D _ (fun _ => 0)) by (intros; ring). apply Sig_zero.
Qed.

Lemma mean_unchanged (N : nat) (c : R) (A B : nat -> R) (dh : nat -> R) (de : R) :
  (0 < N)%nat -> mean_of N B + mean_of N dh = de -> mean_of N (fun n => A n - c * (B n + mean_of N dh - de)) = mean_of N A.
Proof.
  intros HN Hm. rewrite (mean_ext N _ (fun n => A n + (- c) * (B n + (mean_of N dh - de)))) by (intros n Hn; ring).
  rewrite (mean_add N A), (mean_scal N (- c)), (mean_add N B), mean_const by exact HN. replace (mean_of N B + (mean_of N dh - de)) with 0 by lra. ring.
Qed.

(*@ C58_mean_unchanged : When the sample mean of the control variate's jacobian plus that of its derivative in the parameters equals the derivative of its closed-form expectation, the mean over the samples of every returned jacobian is that of the estimator alone, for every function, control variate, estimator and coefficient. *)
Lemma cv_mean_unchanged : forall `{P : Platform} (St : Type) (f : gt dual -> dual) (mk : (gt dual -> dual) -> cvariate St) (est : estimator) (params : list (gt XR)) (b : builder) (rng : p_key P) (N D M : nat) (st st' : St) (dist : ddist) (smp : gt dual)
  (fj cj : list (gt XR)) (estimate : bool) (c : nat -> R) (da db : nat -> fdt) (A B : nat -> nat -> nat -> R) (h : nat -> R) (dh : nat -> nat -> nat -> R) (e : R) (de : nat -> nat -> R),
  let cv := mk f in
  params <> [] -> (forall p, In p params -> shp p = [D]) -> (0 < N)%nat ->
  build b (map lift params) = Ok dist -> dd_sample dist N rng = Ok smp -> hd 0%nat (shp smp) = N -> cv_update cv params (primal smp) st = Ok st' ->
  est f params b rng N = Ok fj -> est (fun x => cv_value cv (map lift params) x st') params b rng N = Ok cj ->
  (forall i, (i < length params)%nat -> exists t, nth_error fj i = Some t /\ is_rect t (da i) N D (A i)) ->
  (forall i, (i < length params)%nat -> exists t, nth_error cj i = Some t /\ is_rect t (db i) N D (B i)) ->
  (forall i n k, (i < length params)%nat -> (n < N)%nat -> (k < D)%nat -> cv_value cv (basis params i [k]) (@slice0 (DualOps P) (lift (primal smp)) n) st' = fd (h n) (dh i n k)) ->
  (forall i k, (i < length params)%nat -> (k < D)%nat -> cv_expected cv (basis params i [k]) st' = fd e (de i k)) ->
  (if estimate then exists l, estimate_control_variate_coefficients f mk est params b rng M st (Fin (1 / 1000)) = Ok l /\ forall i, (i < length params)%nat -> exists dc, nth_error l i = Some (dc, Fin (c i))
   else forall i, c i = 1) ->
  (forall i k, (i < length params)%nat -> (k < D)%nat -> mean_of N (fun n => B i n k) + mean_of N (fun n => dh i n k) = de i k) ->
  exists js, control_variates_jacobians f mk est params b rng N st estimate M = Ok (js, st') /\ length js = length params /\
  forall i j, nth_error js i = Some j -> exists d J, is_rect j d N D J /\ forall k, (k < D)%nat -> mean_of N (fun n => J n k) = mean_of N (fun n => A i n k).
Proof.
  intros P St f mk est params b rng N D M st st' dist smp fj cj estimate c da db A B h dh e de cv Hne Hsh HN Eb Es Hd Eu Ef Ec HA HB Hh He Hc Hm.
  destruct (@cv_algebra P St f mk est params b rng N D M st st' dist smp fj cj estimate c da db A B h dh e de Hne Hsh HN Eb Es Hd Eu Ef Ec HA HB Hh He Hc) as (js & Ejs & Ljs & Hjs).
  exists js. split; [exact Ejs|]. split; [exact Ljs|]. intros i j Hj. destruct (Hjs i j Hj) as (d & Rj). eexists d, _. split; [exact Rj|]. intros k Hk. cbv beta.
  assert (Li : (i < length params)%nat) by (rewrite <- Ljs; apply nth_error_Some; congruence).
  apply (mean_unchanged N (c i) (fun n => A i n k) (fun n => B i n k) (fun m => dh i m k) (de i k) HN). now apply Hm.
Qed.

(** The gradient and Hessian of sum(x^2). *)
Definition sq_grad (_ : gt dual -> dual) (x : gt dual) : gt dual := emap (fun d v => @fmul (DualOps ones_platform) d (fd 2 0) v) x.
Definition sq_hess (_ : gt dual -> dual) (x : gt dual) : gt dual := tab (dt x) [2%nat; 2%nat] (fun o => fd (2 * idm (hd 0%nat o) (hd 0%nat (tl o))) 0).
Lemma sq_derivatives : @derivatives ones_platform sq_grad sq_hess sum_sq 2 (quadratic 2 0 (fun _ => 0) (fun i j => 2 * idm i j)) (fun v i => 0 + Sig 2 (fun j => 2 * idm i j * v j)) (fun _ i j => 2 * idm i j) (fun _ _ _ _ => 0).
Proof.
  assert (Eg : forall v i, (i < 2)%nat -> 0 + Sig 2 (fun j => 2 * idm i j * v j) = 2 * v i).
  { intros v i Hi. rewrite (Sig_ext 2 _ (fun j => 2 * v j * idm i j)) by (intros; ring). rewrite (Sig_idm 2 (fun j => 2 * v j) i Hi). ring. }
  split; [|split; [|split]].
  - intros d v t. etransitivity; [apply sum_sq_diff|]. apply fd_ext.
    + unfold quadratic, Sig. cbn. rewrite !rsum_cons, !rsum_nil. unfold idm. cbn. field.
    + apply Sig_ext. intros i Hi. now rewrite Eg.
  - intros d v t. apply (@dvec_ext ones_platform _ _ _ (fun i => 2 * v i) (fun i => 2 * t i)).
    + intros i Hi. rewrite Eg by exact Hi. split; [reflexivity|]. rewrite (Sig_ext 2 _ (fun j => 2 * t j * idm i j)) by (intros; ring). now rewrite (Sig_idm 2 (fun j => 2 * t j) i Hi).
    + apply (@dmap_v ones_platform _ _ _ _ _ _ _ _ (@dpoint_dvec ones_platform d 2 v t)). intros i Hi dd. rewrite d_mul. apply fd_ext; ring.
  - intros d v t. split; [reflexivity|]; split; [reflexivity|]; split; [apply tab_wf|]. intros n i Hn Hi. etransitivity; [apply (@tget_tab (DualOps ones_platform)); cbn; auto|]. cbn [hd tl]. apply fd_ext; [reflexivity|]. rewrite (Sig_ext 2 _ (fun _ => 0)) by (intros; ring). now rewrite Sig_zero.
  - intros v i j. unfold idm. now rewrite Nat.eqb_sym.
Qed.
(*@ex C58_delta_example *)
Lemma delta_example : exists jm js d1 d2, @control_variates_jacobians ones_platform _ sum_sq (@control_delta_method ones_platform sq_grad sq_hess) (@score_function_jacobians ones_platform) [ex_loc; ex_ls] BNormal 0%nat 1%nat tt false 20 = Ok ([jm; js], tt) /\
  is_rect jm d1 1 2 (fun _ k => if (k =? 0)%nat then 6 else 8) /\ is_rect js d2 1 2 (fun _ _ => 2).
Proof.
  destruct (@delta_exact ones_platform sq_grad sq_hess sum_sq 2 1 0 (fun _ => 0) (fun i j => 2 * idm i j) true score_function_jacobians ex_loc ex_ls F32 _ _ 0%nat 1%nat 2%nat (fun _ _ => 1) (fun _ _ => 1) (fun _ _ => 1) (fun _ _ => 1) (fun _ _ => 1) (fun _ _ => 1) sq_derivatives (ex_vec 3 4) (ex_vec 0 0)) as (jm & js & d1 & d2 & E & R1 & R2); try (intros ? ? ? ?; reflexivity); [lia|reflexivity|auto|].
  exists jm, js, d1, d2. split; [exact E|]. split; [eapply rect_ext; [|exact R1]|eapply rect_ext; [|exact R2]]; intros n k Hn Hk; cbv beta; unfold Sig; destruct k as [|[|k]]; try lia; cbn -[Rmult pow]; rewrite ?rsum_cons, ?rsum_nil, ?exp_0; unfold idm; cbn -[Rmult pow]; ring.
Qed.
(*@ex C58_example *)
Lemma baseline_example : exists jm js dv' d1 d2, @control_variates_jacobians ones_platform _ sum_sq (@moving_avg_baseline ones_platform (Fin (1/2)) true false) (@score_function_jacobians ones_platform) [ex_loc; ex_ls] BNormal 0%nat 1%nat ((F32, Fin 0), Z.of_nat 0) false 20 = Ok ([jm; js], ((dv', Fin 41), Z.of_nat 1)) /\
  is_rect jm d1 1 2 (fun _ _ => 0) /\ is_rect js d2 1 2 (fun _ _ => 0).
Proof.
  destruct (@baseline_score ones_platform sum_sq (fun v => Sig 2 (fun i => v i * v i)) (1/2) 0 true false ex_loc ex_ls F32 F32 2 1 0 (fun i => if (i =? 0)%nat then 3 else 4) (fun i => if (i =? 0)%nat then 0 else 0) 0%nat (fun _ _ => 1)) as (jm & js & dv' & d1 & d2 & E & R1 & R2).
  - intros v. exact (@differentiates_const sum_sq _ _ _ _ v (sum_sq_diff F32 2)).
  - exact (ex_vec 3 4).
  - exact (ex_vec 0 0).
  - intros ? ? ? ?; reflexivity.
  - lia.
  - cbn. lra.
  - assert (Eb : forall m0, ((it_decay false (1 / 2) 0 * 0 + (1 - it_decay false (1 / 2) 0) * mean_of 1 m0) / debias true (it_decay false (1 / 2) 0) 0) = m0 0%nat) by (intros m0; unfold mean_of, Sig; cbn; rewrite rsum_cons, rsum_nil; field).
    rewrite Eb in E, R1, R2.
    assert (Ev : Sig 2 (fun i => gauss (fun i0 => if (i0 =? 0)%nat then 3 else 4) (fun i0 => if (i0 =? 0)%nat then 0 else 0) (fun _ _ => 1) 0 i * gauss (fun i0 => if (i0 =? 0)%nat then 3 else 4) (fun i0 => if (i0 =? 0)%nat then 0 else 0) (fun _ _ => 1) 0 i) = 41).
    { unfold Sig, gauss. cbn -[Rmult]. rewrite !rsum_cons, rsum_nil, exp_0. ring. }
    rewrite Ev in E, R1, R2. exists jm, js, dv', d1, d2. split; [exact E|]. split; [eapply rect_ext; [|exact R1]|eapply rect_ext; [|exact R2]]; intros [|n] k Hn Hk; try lia; cbv beta; rewrite Ev; ring.
Qed.
