(** Control variates (C58). *)
From Verif Require Export M_cv P_score.
From Coq Require Import List Psatz Reals Qreals Lia ZArith.
Import ListNotations.
Open Scope R_scope.
(*@header
From Coq Require Import List ZArith.
Import ListNotations.
Open Scope R_scope.
*)

(** ** Specification *)
Definition mean_of (N : nat) (x : nat -> R) : R := Sig N x / INR N.
(** Sample variance (population normalisation) and covariance. *)
Definition cov_of (N : nat) (x y : nat -> R) : R := mean_of N (fun n => (x n - mean_of N x) * (y n - mean_of N y)).
Definition var_of (N : nat) (x : nat -> R) : R := cov_of N x x.
(** The total variance over the D columns of an N x D array. *)
Definition total_var (N D : nat) (A : nat -> nat -> R) : R := Sig D (fun k => var_of N (fun n => A n k)).
Definition total_cov (N D : nat) (A B : nat -> nat -> R) : R := Sig D (fun k => cov_of N (fun n => A n k) (fun n => B n k)).

Section X.
  Context {P : Platform}.
  Notation xr := (XROps P). Notation dr := (DualOps P).
  Definition coeff_val (c : option (fdt * XR)) (v : R) : Prop := match c with None => v = 1 | Some (_, x) => x = Fin v end.
  Lemma scale_rect c v (t : gt XR) d N D A : coeff_val c v -> is_rect t d N D A -> exists r d', @scale_by_coeff xr c t = Ok r /\ is_rect r d' N D (fun n k => v * A n k).
  Proof.
    intros Hc (Dt & St & Wt & Gt). destruct c as [(dc, x)|]; cbn [coeff_val scale_by_coeff] in *.
    - subst x. destruct (bin_x (@fmul xr) (@scalar xr dc (Fin v)) t [N; D]) as (r & Er & (Dr & Sr & Wr) & Hr); [reflexivity|exact Wt|cbn [scalar shp]; nx; rewrite St; apply bshape_nil_l|].
      exists r, (promote dc (dt t)). split; [exact Er|]. nx. apply (@rect_intro P); auto. intros n i Hn Hi. rewrite Hr by (cbn; auto). unfold bget. cbn [scalar shp]. nx. rewrite St, bidx_nil, bidx_rect by assumption. rewrite (Gt P) by assumption. reflexivity.
    - subst v. eexists _, d. split; [reflexivity|]. apply (@rect_intro P); auto.
      + unfold twf in *. cbn [sl emap dat shp]. now rewrite map_length.
      + intros n i Hn Hi. unfold sl. rewrite (@tget_emap_val xr); [|exact Wt|nx; rewrite St; cbn; auto]. nx. rewrite (Gt P) by assumption. unfold fone. cbn [fcast fmul flit XROps]. rewrite Q2R_1, xmul_fin. reflexivity.
  Qed.
  Lemma scale_vec c v (t : gt XR) d D x : coeff_val c v -> is_vec t d D x -> exists r d', @scale_by_coeff xr c t = Ok r /\ is_vec r d' D (fun k => v * x k).
  Proof.
    intros Hc Hx. destruct (is_vec_parts _ _ _ _ Hx) as (Dt & St & Wt). destruct c as [(dc, y)|]; cbn [coeff_val scale_by_coeff] in *.
    - subst y. destruct (bin_x (@fmul xr) (@scalar xr dc (Fin v)) t [D]) as (r & Er & (Dr & Sr & Wr) & Hr); [reflexivity|exact Wt|cbn [scalar shp]; nx; rewrite St; apply bshape_nil_l|].
      exists r, (promote dc (dt t)). split; [exact Er|]. nx. apply (@vec_intro P); auto. intros i Hi. rewrite Hr by (cbn; auto). unfold bget. cbn [scalar shp]. nx. rewrite St, bidx_nil, bidx_same by (cbn; auto). rewrite (is_vec_tget _ _ _ _ Hx i Hi). reflexivity.
    - subst v. eexists _, d. split; [reflexivity|]. apply (map_v _ _ _ _ _ _ Hx). intros i Hi dd. unfold fone. cbn [fcast fmul flit XROps]. rewrite Q2R_1, xmul_fin. reflexivity.
  Qed.
  Lemma rect_parts t d N D A : is_rect t d N D A -> dt t = d /\ shp t = [N; D] /\ twf t.
  Proof. intros (H1 & H2 & H3 & _). auto. Qed.
  Lemma combine_val N D c v (fj cj cg eg p : gt XR) d1 d2 d3 d4 A B G E : coeff_val c v -> is_rect fj d1 N D A -> is_rect cj d2 N D B -> is_vec cg d3 D G -> is_vec eg d4 D E -> shp p = [D] ->
    exists r d, @combine_jacobians xr N D c fj cj cg eg p = Ok r /\ is_rect r d N D (fun n k => A n k - v * B n k - v * G k + v * E k).
  Proof.
    intros Hc Rf Rc Vg Ve Sp. unfold combine_jacobians.
    destruct (rect_parts _ _ _ _ _ Rf) as (_ & Sf & _). destruct (rect_parts _ _ _ _ _ Rc) as (_ & Sc & _). destruct (is_vec_parts _ _ _ _ Vg) as (_ & Sg & _). destruct (is_vec_parts _ _ _ _ Ve) as (_ & Se & _).
    nx. rewrite Sf, Sc, Sg, Se, !(proj2 (shape_eqb_eq _ _) eq_refl). cbn [rguard rbind].
    destruct (scale_rect c v cj d2 N D B Hc Rc) as (x1 & e1 & E1 & R1). nx. rewrite E1. cbn [rbind].
    destruct (bin_rr (@fsub xr) fj x1 _ _ N D _ _ Rminus Rf R1) as (y1 & F1 & Y1); [reflexivity|]. rewrite F1. cbn [rbind].
    destruct (scale_vec c v cg d3 D G Hc Vg) as (x2 & e2 & E2 & R2). nx. rewrite E2. cbn [rbind].
    destruct (bin_rv (@fsub xr) y1 x2 _ _ N D _ _ Rminus Y1 R2) as (y2 & F2 & Y2); [reflexivity|]. rewrite F2. cbn [rbind].
    destruct (scale_vec c v eg d4 D E Hc Ve) as (x3 & e3 & E3 & R3). nx. rewrite E3. cbn [rbind].
    destruct (bin_rv (@fadd xr) y2 x3 _ _ N D _ _ Rplus Y2 R3) as (y3 & F3 & Y3); [reflexivity|]. rewrite F3. cbn [rbind].
    destruct (rect_parts _ _ _ _ _ Y3) as (_ & S3 & _). nx. rewrite S3, Sp, (proj2 (shape_eqb_eq _ _) eq_refl). cbn [rguard rbind]. eexists _, _. split; [reflexivity|]. exact Y3.
  Qed.
  Lemma vmean_d d N (g h : nat -> R) : (0 < N)%nat -> @vmean dr (mkT d [N] (map (fun n => fd (g n) (h n)) (seq 0 N))) = fd (mean_of N g) (mean_of N h).
  Proof.
    intros HN. unfold vmean. cbn [dt dat]. rewrite map_length, seq_length. pose proof (@fsum_sig P d N g h) as E. dx. rewrite E.
    unfold fofZ. rewrite d_lit, Q2R_Z, <- INR_IZR_INZ. rewrite d_div by (apply not_0_INR; lia). unfold mean_of. apply fd_ext; [reflexivity|]. field. apply not_0_INR. lia.
  Qed.
  Lemma nth_map2_seq {A B} (f : nat -> A -> B) (l : list A) i a b0 : nth_error l i = Some a -> nth_error (map2 f (seq b0 (length l)) l) i = Some (f (b0 + i)%nat a).
  Proof. revert i b0; induction l as [|x l IH]; intros [|i] b0; cbn; try discriminate; [intros [= ->]; now rewrite Nat.add_0_r|]. intros H. rewrite (IH i (S b0) H). do 2 f_equal. lia. Qed.
  Lemma grad_vec (g : list (gt dual) -> dual) (params : list (gt XR)) i p D v dv : nth_error params i = Some p -> shp p = [D] -> (forall k, (k < D)%nat -> g (@basis P params i [k]) = fd (v k) (dv k)) ->
    exists r, nth_error (grad_of g params) i = Some r /\ is_vec r (dt p) D dv.
  Proof.
    intros Hp Sp Hg. unfold grad_of. rewrite (nth_map2_seq _ _ _ _ _ Hp). eexists. split; [reflexivity|]. cbn [Nat.add]. rewrite Sp. eapply tabv_vec; try exact P. intros k Hk. rewrite Hg by assumption. reflexivity.
  Qed.
  Lemma mapM_nth {A B} (f : A -> result B) l (Q : nat -> B -> Prop) : (forall i a, nth_error l i = Some a -> exists b, f a = Ok b /\ Q i b) -> exists r, mapM f l = Ok r /\ length r = length l /\ forall i b, nth_error r i = Some b -> Q i b.
  Proof.
    revert Q; induction l as [|a l IH]; intros Q H; [exists []; repeat split; intros [|i] b; discriminate|]. destruct (H 0%nat a eq_refl) as (b & Eb & Qb).
    destruct (IH (fun i => Q (S i))) as (r & Er & Lr & Hr); [intros i a' Ha; apply (H (S i) a' Ha)|]. exists (b :: r). cbn. rewrite Eb. cbn [rbind]. rewrite Er. cbn [rbind]. repeat split; [now rewrite Lr|]. intros [|i] b'; cbn; [intros [= <-]; exact Qb|apply Hr].
  Qed.
  Lemma nth_combine_seq {A} (l : list A) i a b0 : nth_error l i = Some a -> nth_error (combine (seq b0 (length l)) l) i = Some ((b0 + i)%nat, a).
  Proof. revert i b0; induction l as [|x l IH]; intros [|i] b0; cbn; try discriminate; [intros [= ->]; now rewrite Nat.add_0_r|]. intros H. rewrite (IH i (S b0) H). do 2 f_equal. lia. Qed.
  Lemma nth_combine_seq_inv {A} (l : list A) i j a b0 : nth_error (combine (seq b0 (length l)) l) i = Some (j, a) -> j = (b0 + i)%nat /\ nth_error l i = Some a.
  Proof. intros H. destruct (nth_error l i) as [a'|] eqn:E. - rewrite (nth_combine_seq _ _ _ _ E) in H. injection H as <- <-. auto. - apply nth_error_None in E. assert (L : nth_error (combine (seq b0 (length l)) l) i = None) by (apply nth_error_None; rewrite combine_length, seq_length; lia). congruence. Qed.
End X.

(*@ C58_algebra : control_variates_jacobians, for every function, control variate (with any state), gradient estimator, distribution builder, key, number of parameters, dimension and number of samples: the state is updated once, on the samples drawn with the same key, before use; and entry [n, k] of the jacobian of parameter i is A[n,k] - c (B[n,k] + mean over the samples of the derivative of the control variate with respect to entry k of the parameter - the derivative of its closed-form expectation), where A and B are the estimator's jacobians of the function and of the control variate (parameters held fixed, updated state) on the same key, and c is 1 or the estimated coefficient of the parameter. *)
Lemma cv_algebra : forall `{P : Platform} (St : Type) (f : gt dual -> dual) (mk : (gt dual -> dual) -> cvariate St) (est : estimator) (params : list (gt XR)) (b : builder) (rng : p_key P) (N D M : nat) (st st' : St) (dist : ddist) (smp : gt dual)
  (fj cj : list (gt XR)) (estimate : bool) (c : nat -> R) (da db : nat -> fdt) (A B : nat -> nat -> nat -> R) (h : nat -> R) (dh : nat -> nat -> nat -> R) (e : R) (de : nat -> nat -> R),
  let cv := mk f in
  params <> [] -> (forall p, In p params -> shp p = [D]) -> (0 < N)%nat ->
  build b (map lift params) = Ok dist -> dd_sample dist N rng = Ok smp -> hd 0%nat (shp smp) = N -> cv_update cv params (primal smp) st = Ok st' ->
  est f params b rng N = Ok fj -> est (fun x => cv_value cv (map lift params) x st') params b rng N = Ok cj ->
  (forall i, (i < length params)%nat -> exists t, nth_error fj i = Some t /\ is_rect t (da i) N D (A i)) ->
  (forall i, (i < length params)%nat -> exists t, nth_error cj i = Some t /\ is_rect t (db i) N D (B i)) ->
  (forall i n k, (i < length params)%nat -> (n < N)%nat -> (k < D)%nat -> cv_value cv (basis params i [k]) (@slice0 (DualOps P) (lift (primal smp)) n) st' = fd (h n) (dh i n k)) ->
  (forall i k, (i < length params)%nat -> (k < D)%nat -> cv_expected cv (basis params i [k]) st' = fd e (de i k)) ->
  (if estimate then exists l, estimate_control_variate_coefficients f mk est params b rng M st (Fin (1 / 1000)) = Ok l /\ forall i, (i < length params)%nat -> exists dc, nth_error l i = Some (dc, Fin (c i))
   else forall i, c i = 1) ->
  exists js, control_variates_jacobians f mk est params b rng N st estimate M = Ok (js, st') /\ length js = length params /\
  forall i j, nth_error js i = Some j -> exists d, is_rect j d N D (fun n k => A i n k - c i * (B i n k + mean_of N (fun m => dh i m k) - de i k)).
Proof.
  intros P St f mk est params b rng N D M st st' dist smp fj cj estimate c da db A B h dh e de cv Hne Hsh HN Eb Es Hd Eu Ef Ec HA HB Hh He Hc.
  unfold control_variates_jacobians. fold cv.
  assert (Edd : match params with p :: _ => match shp p with n :: _ => Ok n | [] => Err EIndex end | [] => Err EIndex end = Ok D).
  { destruct params as [|p ps]; [easy|]. rewrite (Hsh p) by now left. reflexivity. }
  rewrite Edd. cbn [rbind].
  assert (Hco : exists cs, (if estimate then let* l := estimate_control_variate_coefficients f mk est params b rng M st (@flit (XROps P) (1 # 1000)) in Ok (map Some l) else Ok (repeat None (length params))) = Ok cs /\ forall i, (i < length params)%nat -> exists x, nth_error cs i = Some x /\ @coeff_val x (c i)).
  { destruct estimate.
    - destruct Hc as (l & El & Hl). cbn [flit XROps]. replace (Q2R (1 # 1000)) with (1 / 1000) by (unfold Q2R; cbn; lra). rewrite El. cbn [rbind]. eexists. split; [reflexivity|]. intros i Hi. destruct (Hl i Hi) as (dc & Hdc). rewrite nth_error_map, Hdc. eexists. split; reflexivity.
    - eexists. split; [reflexivity|]. intros i Hi. exists None. split; [|exact (Hc i)]. rewrite (nth_error_nth' _ None) by (now rewrite repeat_length). f_equal. apply nth_repeat. }
  destruct Hco as (cs & Ecs & Hcs). nx. rewrite Ecs. cbn [rbind]. rewrite Ef. cbn [rbind]. rewrite Eb. cbn [rbind]. rewrite Es. cbn [rbind]. rewrite Eu. cbn [rbind]. rewrite Ec. cbn [rbind].
  match goal with |- exists js, (let* _ := mapM ?g ?l in _) = _ /\ _ => destruct (mapM_nth g l (fun i j => exists d, is_rect j d N D (fun n k => A i n k - c i * (B i n k + mean_of N (fun m => dh i m k) - de i k)))) as (js & Ejs & Ljs & Hjs) end.
  2: { rewrite Ejs. cbn [rbind]. exists js. split; [reflexivity|]. split; [|exact Hjs]. rewrite Ljs, combine_length, seq_length. lia. }
  intros i (i0, p) Hi. apply nth_combine_seq_inv in Hi as (-> & Hp). cbn [Nat.add]. assert (Li : (i < length params)%nat) by (apply nth_error_Some; congruence).
  destruct (HA i Li) as (t1 & E1 & R1). destruct (HB i Li) as (t2 & E2 & R2). destruct (Hcs i Li) as (x & Ex & Vx). rewrite E1, E2.
  assert (Sp : shp p = [D]) by (apply Hsh; eapply nth_error_In; exact Hp).
  destruct (grad_vec (fun x => mean_map (cv_value cv) x (lift (primal smp)) st') params i p D (fun _ => mean_of N h) (fun k => mean_of N (fun n => dh i n k)) Hp Sp) as (g1 & Eg1 & V1).
  { intros k Hk. unfold mean_map, vmap_fn. change (shp (lift (primal smp))) with (shp smp). change (dt (lift (primal smp))) with (dt smp). dx. rewrite Hd. unfold tab. rewrite indices1, map_map. cbn [hd].
    etransitivity; [|apply (vmean_d (dt smp) N h (fun n => dh i n k) HN)]. f_equal. f_equal. apply map_ext_in. intros n Hn. apply In_seq0 in Hn. now apply Hh. }
  destruct (grad_vec (fun x => cv_expected cv x st') params i p D (fun _ => e) (de i) Hp Sp) as (g2 & Eg2 & V2); [intros k Hk; now apply He|].
  rewrite Eg1, Eg2, Ex. destruct (combine_val N D x (c i) t1 t2 g1 g2 p _ _ _ _ _ _ _ _ Vx R1 R2 V1 V2 Sp) as (r & d & Er & Rr). exists r. split; [exact Er|]. exists d. eapply rect_ext; [|exact Rr]. intros n k _ _. cbv beta. ring.
Qed.

Section Coeff.
  Context {P : Platform}.
  Notation xr := (XROps P).
  Lemma mean0_vec (t : gt XR) d N D A : (0 < N)%nat -> is_rect t d N D A -> is_vec (@mean0 xr t) d D (fun k => mean_of N (fun n => A n k)).
  Proof.
    intros HN (Dt & St & Wt & Gt). unfold mean0. nx. rewrite St, Dt. cbn [nth tl]. eapply tabv_vec; try exact P. intros k Hk. cbn [fsum fdiv XROps].
    rewrite (xsum_sig N (fun n => A n k)) by (intros n Hn; now apply Gt). unfold fofZ. cbn [flit XROps]. rewrite Q2R_Z, <- INR_IZR_INZ, xdiv_fin by (apply not_0_INR; lia). reflexivity.
  Qed.
  Lemma centred (t : gt XR) d N D A : (0 < N)%nat -> is_rect t d N D A -> exists c, @bin xr (@fsub xr) t (@mean0 xr t) = Ok c /\ is_rect c d N D (fun n k => A n k - mean_of N (fun m => A m k)).
  Proof.
    intros HN Ht. destruct (bin_rv (@fsub xr) t _ _ _ N D _ _ Rminus Ht (mean0_vec _ _ _ _ _ HN Ht)) as (c & Ec & Hc); [reflexivity|]. rewrite promote_same in Hc. eauto.
  Qed.
  Lemma vec_tsum (t : gt XR) d D v : is_vec t d D v -> @tsum xr t = Fin (Sig D v).
  Proof. intros H. unfold tsum. cbn [fsum XROps]. nx. rewrite (is_vec_dat _ _ _ _ H). apply xsum_list. Qed.
  Lemma coeff_value eps (cj fj : gt XR) d1 d2 N D A B : (0 < N)%nat -> is_rect fj d1 N D A -> is_rect cj d2 N D B -> total_var N D B + eps <> 0 ->
    exists d, @compute_coeff xr (Fin eps) cj fj = Ok (d, Fin (total_cov N D A B / (total_var N D B + eps))).
  Proof.
    intros HN Hf Hc He. unfold compute_coeff. destruct (rect_parts _ _ _ _ _ Hf) as (_ & Sf & _). destruct (rect_parts _ _ _ _ _ Hc) as (_ & Sc & _). nx. rewrite Sf, Sc. cbn [length Nat.eqb rguard rbind].
    destruct (centred fj _ _ _ _ HN Hf) as (a & Ea & Ra). rewrite Ea. cbn [rbind]. destruct (centred cj _ _ _ _ HN Hc) as (b & Eb & Rb). rewrite Eb. cbn [rbind].
    destruct (bin_rr (@fmul xr) a b _ _ N D _ _ Rmult Ra Rb) as (ab & Eab & Rab); [reflexivity|]. rewrite Eab. cbn [rbind]. pose proof (mean0_vec _ _ _ _ _ HN Rab) as Vcov. destruct (is_vec_parts _ _ _ _ Vcov) as (Dcov & Scov & _). nx. rewrite Scov. cbn [length Nat.eqb rguard rbind].
    unfold var0. rewrite Eb. cbn [rbind].
    assert (Rsq : is_rect (@tsquare xr b) d2 N D (fun n k => (B n k - mean_of N (fun m => B m k)) * (B n k - mean_of N (fun m => B m k)))).
    { destruct Rb as (Db & Sb & Wb & Gb). apply (@rect_intro P); auto; [unfold twf in *; cbn [tsquare un emap dat shp]; now rewrite map_length|]. intros n i Hn Hi. unfold tsquare, un. rewrite (@tget_emap_val xr); [|exact Wb|nx; rewrite Sb; cbn; auto]. nx. rewrite (Gb P) by assumption. reflexivity. }
    pose proof (mean0_vec _ _ _ _ _ HN Rsq) as Vvar. eexists. do 2 f_equal. rewrite !conv_x, (vec_tsum _ _ _ _ Vcov), (vec_tsum _ _ _ _ Vvar). cbn [fadd fdiv fcast fstop XROps]. rewrite xadd_fin, xdiv_fin by exact He. reflexivity.
  Qed.
End Coeff.

Lemma mean_add N x y : mean_of N (fun n => x n + y n) = mean_of N x + mean_of N y.
Proof. unfold mean_of. rewrite Sig_add. unfold Rdiv. ring. Qed.
Lemma mean_scal N c x : mean_of N (fun n => c * x n) = c * mean_of N x.
Proof. unfold mean_of. rewrite Sig_scal. unfold Rdiv. ring. Qed.
Lemma mean_ext N x y : (forall n, (n < N)%nat -> x n = y n) -> mean_of N x = mean_of N y.
Proof. intros H. unfold mean_of. now rewrite (Sig_ext N x y H). Qed.
Lemma mean_const N c : (0 < N)%nat -> mean_of N (fun _ => c) = c.
Proof. intros H. unfold mean_of. assert (E : Sig N (fun _ => c) = INR N * c). { clear H. induction N as [|N IH]; [unfold Sig; cbn; rewrite rsum_nil; ring|]. rewrite Sig_S, IH, S_INR. ring. } rewrite E. field. apply not_0_INR. lia. Qed.
Lemma mean_nonneg N x : (forall n, (n < N)%nat -> 0 <= x n) -> 0 <= mean_of N x.
Proof. intros H. unfold mean_of, Rdiv. destruct N as [|N]; [unfold Sig; cbn; rewrite rsum_nil; lra|]. apply Rmult_le_pos; [now apply Sig_nonneg|]. left. apply Rinv_0_lt_compat. apply lt_0_INR. lia. Qed.
Lemma var_combination N a b c : var_of N (fun n => a n - c * b n) = var_of N a - 2 * c * cov_of N a b + c * c * var_of N b.
Proof.
  unfold var_of, cov_of. assert (Em : mean_of N (fun n => a n - c * b n) = mean_of N a - c * mean_of N b).
  { rewrite (mean_ext N _ (fun n => a n + - c * b n)) by (intros; ring). rewrite mean_add, (mean_scal N (- c)). ring. }
  rewrite Em.
  rewrite (mean_ext N _ (fun n => (a n - mean_of N a) * (a n - mean_of N a) + (- (2 * c) * ((a n - mean_of N a) * (b n - mean_of N b)) + c * c * ((b n - mean_of N b) * (b n - mean_of N b))))) by (intros; ring).
  rewrite !mean_add, !mean_scal. ring.
Qed.
Lemma total_combination N D A B c : total_var N D (fun n k => A n k - c * B n k) = total_var N D A - 2 * c * total_cov N D A B + c * c * total_var N D B.
Proof.
  unfold total_var, total_cov. rewrite (Sig_ext D _ (fun k => var_of N (fun n => A n k) + (- (2 * c) * cov_of N (fun n => A n k) (fun n => B n k) + c * c * var_of N (fun n => B n k)))) by (intros k _; rewrite var_combination; ring).
  rewrite !Sig_add, !Sig_scal. ring.
Qed.
Lemma total_var_nonneg N D A : 0 <= total_var N D A.
Proof. apply Sig_nonneg. intros k _. apply mean_nonneg. intros n _. apply Rle_0_sqr. Qed.

(*@ C58_coefficients : estimate_control_variate_coefficients, for every function, control variate, estimator and state: it draws on the first half of the split key and with the state as given; the coefficient of a parameter is the sum over the dimensions of the sample covariances of the two jacobians divided by the sum of the sample variances of the control variate's jacobian plus eps. *)
Lemma cv_coefficients : forall `{P : Platform} (St : Type) (f : gt dual -> dual) (mk : (gt dual -> dual) -> cvariate St) (est : estimator) (params : list (gt XR)) (b : builder) (rng k1 k2 : p_key P) (N D : nat) (st : St) (eps : R)
  (fj cj : list (gt XR)) (da db : nat -> fdt) (A B : nat -> nat -> nat -> R),
  (0 < N)%nat -> p_ksplit P rng 2 = [k1; k2] ->
  est (fun x => cv_value (mk f) (map lift params) x st) params b k1 N = Ok cj -> est f params b k1 N = Ok fj ->
  (forall i, (i < length params)%nat -> exists t, nth_error fj i = Some t /\ is_rect t (da i) N D (A i)) ->
  (forall i, (i < length params)%nat -> exists t, nth_error cj i = Some t /\ is_rect t (db i) N D (B i)) ->
  (forall i, (i < length params)%nat -> total_var N D (B i) + eps <> 0) ->
  exists l, estimate_control_variate_coefficients f mk est params b rng N st (Fin eps) = Ok l /\ length l = length params /\
  forall i, (i < length params)%nat -> exists dc, nth_error l i = Some (dc, Fin (total_cov N D (A i) (B i) / (total_var N D (B i) + eps))).
Proof.
  intros P St f mk est params b rng k1 k2 N D st eps fj cj da db A B HN Hk Ec Ef HA HB He. unfold estimate_control_variate_coefficients, split2. cbn [ksplit XROps]. rewrite Hk. cbn [rbind]. rewrite Ec. cbn [rbind]. rewrite Ef. cbn [rbind].
  match goal with |- exists l, mapM ?g ?s = _ /\ _ => destruct (mapM_nth g s (fun i x => exists dc, x = (dc, Fin (total_cov N D (A i) (B i) / (total_var N D (B i) + eps))))) as (l & El & Ll & Hl) end.
  - intros i a Ha. assert (Li : (i < length params)%nat) by (rewrite <- (seq_length (length params) 0); apply nth_error_Some; congruence).
    rewrite (nth_error_nth' _ 0%nat) in Ha by (rewrite seq_length; exact Li). rewrite seq_nth in Ha by exact Li. injection Ha as <-. cbn [Nat.add].
    destruct (HA i Li) as (t1 & E1 & R1). destruct (HB i Li) as (t2 & E2 & R2). rewrite E1, E2. destruct (coeff_value eps t2 t1 _ _ N D _ _ HN R1 R2 (He i Li)) as (d & Ed). eexists. split; [exact Ed|]. eauto.
  - rewrite seq_length in Ll. exists l. split; [exact El|]. split; [exact Ll|]. intros i Hi. destruct (nth_error l i) as [x|] eqn:E; [|apply nth_error_None in E; lia]. destruct (Hl i x E) as (dc & ->). eauto.
Qed.

Lemma optimal_real : forall (N D : nat) (A B : nat -> nat -> R) (eps : R),
  (0 < total_var N D B -> forall c, total_var N D (fun n k => A n k - (total_cov N D A B / (total_var N D B + 0)) * B n k) <= total_var N D (fun n k => A n k - c * B n k)) /\
  (0 < eps -> total_var N D (fun n k => A n k - (total_cov N D A B / (total_var N D B + eps)) * B n k) <= total_var N D A).
Proof.
  intros N D A B eps. split.
  - intros HV c. rewrite !total_combination. set (V := total_var N D B) in *. set (C := total_cov N D A B). rewrite Rplus_0_r.
    assert (H : - 2 * c * C + c * c * V - (- 2 * (C / V) * C + C / V * (C / V) * V) = V * ((c - C / V) * (c - C / V))) by (field; lra).
    pose proof (Rle_0_sqr (c - C / V)) as Hs. unfold Rsqr in Hs. assert (0 <= V * ((c - C / V) * (c - C / V))) by (apply Rmult_le_pos; lra). lra.
  - intros He. rewrite total_combination. pose proof (total_var_nonneg N D B) as HV. set (V := total_var N D B) in *. set (C := total_cov N D A B).
    assert (H : 2 * (C / (V + eps)) * C - C / (V + eps) * (C / (V + eps)) * V = (C / (V + eps)) * (C / (V + eps)) * (V + 2 * eps)) by (field; lra).
    pose proof (Rle_0_sqr (C / (V + eps))) as Hs. unfold Rsqr in Hs. assert (0 <= (C / (V + eps)) * (C / (V + eps)) * (V + 2 * eps)) by (apply Rmult_le_pos; lra). lra.
Qed.

(*@ C58_optimal : With eps = 0 the returned coefficient of every parameter minimises the summed sample variance of (function jacobian - c * control variate jacobian) over all c; with eps > 0 that variance is still never larger than the one without control variate. *)
Lemma cv_optimal : forall `{P : Platform} (St : Type) (f : gt dual -> dual) (mk : (gt dual -> dual) -> cvariate St) (est : estimator) (params : list (gt XR)) (b : builder) (rng k1 k2 : p_key P) (N D : nat) (st : St) (eps : R)
  (fj cj : list (gt XR)) (da db : nat -> fdt) (A B : nat -> nat -> nat -> R),
  (0 < N)%nat -> 0 <= eps -> p_ksplit P rng 2 = [k1; k2] ->
  est (fun x => cv_value (mk f) (map lift params) x st) params b k1 N = Ok cj -> est f params b k1 N = Ok fj ->
  (forall i, (i < length params)%nat -> exists t, nth_error fj i = Some t /\ is_rect t (da i) N D (A i)) ->
  (forall i, (i < length params)%nat -> exists t, nth_error cj i = Some t /\ is_rect t (db i) N D (B i)) ->
  (forall i, (i < length params)%nat -> 0 < total_var N D (B i)) ->
  exists l, estimate_control_variate_coefficients f mk est params b rng N st (Fin eps) = Ok l /\ length l = length params /\
  forall i, (i < length params)%nat -> exists dc c, nth_error l i = Some (dc, Fin c) /\
    (eps = 0 -> forall c', total_var N D (fun n k => A i n k - c * B i n k) <= total_var N D (fun n k => A i n k - c' * B i n k)) /\
    total_var N D (fun n k => A i n k - c * B i n k) <= total_var N D (A i).
Proof.
  intros P St f mk est params b rng k1 k2 N D st eps fj cj da db A B HN He0 Hk Ec Ef HA HB HV.
  destruct (cv_coefficients St f mk est params b rng k1 k2 N D st eps fj cj da db A B HN Hk Ec Ef HA HB) as (l & El & Ll & Hl); [intros i Hi; pose proof (HV i Hi); lra|].
  exists l. split; [exact El|]. split; [exact Ll|]. intros i Hi. destruct (Hl i Hi) as (dc & Hdc). exists dc. eexists. split; [exact Hdc|].
  destruct (optimal_real N D (A i) (B i) eps) as (O1 & O2). destruct He0 as [He0|<-].
  - split; [lra|]. exact (O2 He0).
  - split; [intros _; exact (O1 (HV i Hi))|]. eapply Rle_trans; [exact (O1 (HV i Hi) 0)|]. right. unfold total_var. apply Sig_ext. intros k _. unfold var_of, cov_of. assert (E : mean_of N (fun n => A i n k - 0 * B i n k) = mean_of N (fun n => A i n k)) by (apply mean_ext; intros; ring). rewrite E. apply mean_ext. intros; ring.
Qed.

Section Samples.
  Context {P : Platform}.
  Notation xr := (XROps P). Notation dr := (DualOps P).
  Lemma slice_point (t : gt XR) d N D A n : is_rect t d N D A -> (n < N)%nat -> @slice0 xr t n = point d D (A n).
  Proof.
    intros (Dt & St & Wt & Gt) Hn. unfold slice0. nx. rewrite Dt, St. cbn [tl]. unfold tab, point. f_equal. rewrite indices1, map_map. apply map_ext_in. intros i Hi. apply In_seq0 in Hi. now apply Gt.
  Qed.
  Lemma mean_rect (f : gt dual -> dual) phi (t : gt XR) d N D A : computes f d D phi -> (0 < N)%nat -> is_rect t d N D A -> @vmean xr (@vmap_fn xr (valf f) t) = Fin (mean_of N (fun n => phi (A n))).
  Proof.
    intros Hf HN Ht. unfold vmean, vmap_fn. cbn [tab dt dat]. pose proof Ht as (Dt & St & _). nx. rewrite St. cbn [hd]. rewrite indices1, !map_map, map_length, seq_length. cbn [hd fsum fdiv XROps].
    rewrite (xsum_sig N (fun n => phi (A n))) by (intros n Hn; rewrite (slice_point _ _ _ _ _ _ Ht Hn); apply Hf). unfold fofZ. cbn [flit XROps]. rewrite Q2R_Z, <- INR_IZR_INZ, xdiv_fin by (apply not_0_INR; lia). reflexivity.
  Qed.
  Lemma gauss_samples (loc ls : gt XR) d D N mu s rng z : is_vec loc d D mu -> is_vec ls d D s -> draws_are (p_knormal P rng (@defdt xr) [N; D]) N D z ->
    exists dist smp, build BNormal (map lift [loc; ls]) = Ok dist /\ dd_sample dist N rng = Ok smp /\ hd 0%nat (shp smp) = N /\ is_rect (primal smp) (promote (@defdt xr) d) N D (gauss mu s z).
  Proof.
    intros Hl Hs Hz. cbn [map build]. pose proof (@lift_vec P _ _ _ _ Hl) as HL. pose proof (@lift_vec P _ _ _ _ Hs) as HS.
    assert (Hd : exists dist, @multi_normal dr (lift loc) (lift ls) = Ok dist).
    { unfold multi_normal. pose proof HL as (_ & SL & _). pose proof HS as (_ & SS & _). change (shp (@un dr (@fexp dr) (lift ls))) with (shp (lift ls)). dx. rewrite SL, SS, bshape_same. eauto. }
    destruct Hd as (dist & Ed). rewrite Ed. cbn [rbind]. destruct (dsample _ _ d D mu _ s _ dist rng N z HL HS Ed Hz) as (smp & Es & (Ds & Ss & Ws & Gs)). eexists _, smp. split; [reflexivity|]. cbn [dd_sample]. split; [exact Es|]. dx. split; [now rewrite Ss|].
    apply (@rect_intro P); [exact Ds|exact Ss|unfold twf in *; cbn [primal emap dat shp]; now rewrite map_length|]. intros n i Hn Hi.
    unfold primal, tget, emap. cbn [shp dat]. pose proof (Gs n i Hn Hi) as G. apply nth_error_nth. rewrite nth_error_map. pose proof (@tget_nth dr smp [n; i] Ws) as E. dx. rewrite Ss in E. specialize (E (conj Hn (conj Hi I))). change (XR * XR)%type with dual. rewrite Ss, E, G. reflexivity.
  Qed.
  Lemma fd_const x : dconst (Fin x) = fd x 0. Proof. reflexivity. Qed.
End Samples.

(** The decay used at iteration i, and the baseline's recurrence. *)
Definition it_decay (heuristic : bool) (decay : R) (i : nat) : R := if heuristic then Rmin decay ((1 + INR i) / (10 + INR i)) else decay.
Definition debias (zd : bool) (d : R) (i : nat) : R := if zd then 1 - d ^ (i + 1) else 1.

(*@ C58_baseline_update : The update of moving_avg_baseline, for every function, decay, state and samples: with d the decay, or min(decay, (1+i)/(10+i)) under the early-training heuristic, the new value is d * value + (1-d) * (mean of the function over the samples), divided by 1 - d^(i+1) when debiasing, and the count is i+1. *)
Lemma baseline_update : forall `{P : Platform} (f : gt dual -> dual) (phi : rvec -> R) (decay v : R) (zd heuristic : bool) (params : list (gt XR)) (t : gt XR) (d dv : fdt) (N D i : nat) (A : nat -> rvec),
  computes f d D phi -> (0 < N)%nat -> is_rect t d N D A -> debias zd (it_decay heuristic decay i) i <> 0 ->
  exists dv', cv_update (moving_avg_baseline (Fin decay) zd heuristic f) params t ((dv, Fin v), Z.of_nat i) =
    Ok ((dv', Fin ((it_decay heuristic decay i * v + (1 - it_decay heuristic decay i) * mean_of N (fun n => phi (A n))) / debias zd (it_decay heuristic decay i) i)), Z.of_nat (i + 1)).
Proof.
  intros P f phi decay v zd heuristic params t d dv N D i A Hf HN Ht Hz. cbn [moving_avg_baseline cv_update]. unfold ma_update.
  assert (Ed : (if heuristic then if (Z.of_nat i =? -10)%Z then Err EZeroDiv else Ok (@fmin (XROps P) (Fin decay) (@fdiv (XROps P) F64 (@fadd (XROps P) F64 (@fone (XROps P)) (@fofZ (XROps P) (Z.of_nat i))) (@fadd (XROps P) F64 (@fofZ (XROps P) 10) (@fofZ (XROps P) (Z.of_nat i))))) else Ok (Fin decay)) = Ok (Fin (it_decay heuristic decay i))).
  { destruct heuristic; [|reflexivity]. destruct (Z.eqb_spec (Z.of_nat i) (-10)); [lia|]. f_equal. unfold fone, fofZ. cbn [flit fadd fdiv fmin XROps]. rewrite Q2R_1, !Q2R_Z, <- INR_IZR_INZ, !xadd_fin. pose proof (pos_INR i). rewrite xdiv_fin by lra. cbn [xmin it_decay]. reflexivity. }
  change (@F (XROps P)) with XR in *. rewrite Ed. cbn [rbind]. rewrite (mean_rect f phi t d N D A Hf HN Ht). rewrite !conv_x. set (e := it_decay heuristic decay i) in *.
  unfold fone. cbn [flit fadd fsub fmul fdiv fstop XROps]. rewrite Q2R_1, !xmul_fin, !xsub_fin, xmul_fin, xadd_fin.
  replace (Z.of_nat i + 1)%Z with (Z.of_nat (i + 1)) by lia.
  destruct zd; cbn [debias] in *.
  - unfold fofZ. cbn [flit fpow XROps]. rewrite Q2R_Z, <- INR_IZR_INZ, xpow_nat, xsub_fin, xdiv_fin by exact Hz. eauto.
  - eexists. do 4 f_equal. field.
Qed.

(** The states of the baseline on a history of sample batches of a function that is constant m. *)
Fixpoint baseline_run {P : Platform} (f : gt dual -> dual) (decay : R) (zd heuristic : bool) (hist : list (gt XR)) (st : (fdt * XR) * Z) : result ((fdt * XR) * Z) :=
  match hist with
  | [] => Ok st
  | t :: r => let* st := cv_update (moving_avg_baseline (Fin decay) zd heuristic f) [] t st in baseline_run f decay zd heuristic r st
  end.

Lemma pow_in d n : 0 < d < 1 -> 0 < d ^ (n + 1) < 1.
Proof. intros H. rewrite Nat.add_1_r. induction n as [|n IH]; cbn in *; [lra|]. nra. Qed.
(*@ C58_double_debias : Finding: with a constant decay in (0,1) and zero debiasing, the baseline of a function with the constant value m > 0 is m after the first batch but strictly larger than m after every later one: the debiased value is fed back and debiased again. *)
Lemma double_debias : forall `{P : Platform} (f : gt dual -> dual) (m decay : R) (d dv : fdt) (N D : nat) (hist : list (gt XR)),
  computes f d D (fun _ => m) -> (0 < N)%nat -> 0 < decay < 1 -> 0 < m -> hist <> [] -> (forall t, In t hist -> exists A, is_rect t d N D A) ->
  exists dv' v, baseline_run f decay true false hist ((dv, Fin 0), 0%Z) = Ok ((dv', Fin v), Z.of_nat (length hist)) /\ (length hist = 1%nat -> v = m) /\ ((1 < length hist)%nat -> m < v).
Proof.
  intros P f m decay d dv N D hist Hf HN Hd Hm Hne Hh.
  assert (Gen : forall l dv i v, (forall t, In t l -> exists A, is_rect t d N D A) -> (1 <= i)%nat -> m <= v -> exists dv' v', baseline_run f decay true false l ((dv, Fin v), Z.of_nat i) = Ok ((dv', Fin v'), Z.of_nat (length l + i)) /\ (l <> [] -> m < v') /\ (l = [] -> v' = v)).
  { induction l as [|t l IH]; intros dv0 i v Hl Hi Hv; [exists dv0, v; repeat split; easy|].
    destruct (Hl t (or_introl eq_refl)) as (A & HA). destruct (@baseline_update P f (fun _ => m) decay v true false [] t d dv0 N D i A Hf HN HA) as (dv1 & E1); [cbn [debias it_decay]; pose proof (pow_in decay i Hd); lra|].
    cbn [baseline_run]. rewrite E1. cbn [rbind]. cbn [debias it_decay]. rewrite mean_const by exact HN. set (v1 := (decay * v + (1 - decay) * m) / (1 - decay ^ (i + 1))).
    assert (H1 : m < v1).
    { unfold v1. pose proof (pow_in decay i Hd) as Hp. apply Rmult_lt_reg_r with (1 - decay ^ (i + 1)); [lra|]. unfold Rdiv. rewrite Rmult_assoc, Rinv_l, Rmult_1_r by lra. nra. }
    destruct (IH dv1 (i + 1)%nat v1 (fun t' H => Hl t' (or_intror H)) ltac:(lia) (Rlt_le _ _ H1)) as (dv' & v' & E & Hv1 & Hv2). exists dv', v'. split; [rewrite E; do 2 f_equal; cbn [length]; lia|]. split; [|easy].
    intros _. destruct l; [rewrite Hv2 by reflexivity; exact H1|apply Hv1; discriminate]. }
  destruct hist as [|t l]; [easy|]. destruct (Hh t (or_introl eq_refl)) as (A & HA). destruct (@baseline_update P f (fun _ => m) decay 0 true false [] t d dv N D 0 A Hf HN HA) as (dv1 & E1); [cbn [debias it_decay Nat.add]; cbn; lra|].
  cbn [baseline_run]. change (dv, Fin 0, 0%Z) with (dv, Fin 0, Z.of_nat 0). rewrite E1. cbn [rbind debias it_decay]. rewrite mean_const by exact HN.
  replace ((decay * 0 + (1 - decay) * m) / (1 - decay ^ (0 + 1))) with m by (cbn; field; lra). cbn [Nat.add].
  destruct (Gen l dv1 1%nat m (fun t' H => Hh t' (or_intror H)) ltac:(lia) (Rle_refl _)) as (dv' & v' & E & H1 & H2). exists dv', v'. split; [rewrite E; do 2 f_equal; cbn [length]; lia|]. cbn [length]. split; intros Hl; destruct l; cbn in Hl; try lia; [now apply H2|apply H1; discriminate].
Qed.

(** ** The moving-average baseline with the three estimators *)
Lemma basis2_in {P : Platform} (loc ls : gt XR) d D mu s p : is_vec loc d D mu -> is_vec ls d D s -> In p [loc; ls] -> shp p = [D].
Proof. intros Hl Hs [<-|[<-|[]]]; [apply (is_vec_parts _ _ _ _ Hl)|apply (is_vec_parts _ _ _ _ Hs)]. Qed.

(** Running control_variates_jacobians with the baseline, for an estimator whose results are known. *)
Lemma baseline_jac {P : Platform} (f : gt dual -> dual) phi decay v zd heuristic (est : estimator) (loc ls : gt XR) d dv D N i0 mu s rng z (fm fs cm cs : gt XR) M1 M2 C1 C2 :
  let D1 := promote (@defdt (XROps P)) d in
  let e := it_decay heuristic decay i0 in
  let base := (e * v + (1 - e) * mean_of N (fun n => phi (gauss mu s z n))) / debias zd e i0 in
  computes f D1 D phi -> is_vec loc d D mu -> is_vec ls d D s -> draws_are (p_knormal P rng (@defdt (XROps P)) [N; D]) N D z -> (0 < N)%nat -> debias zd e i0 <> 0 ->
  est f [loc; ls] BNormal rng N = Ok [fm; fs] -> is_rect fm D1 N D M1 -> is_rect fs D1 N D M2 ->
  est (fun _ => fd base 0) [loc; ls] BNormal rng N = Ok [cm; cs] -> is_rect cm D1 N D C1 -> is_rect cs D1 N D C2 ->
  exists jm js dv' d1 d2, control_variates_jacobians f (moving_avg_baseline (Fin decay) zd heuristic) est [loc; ls] BNormal rng N ((dv, Fin v), Z.of_nat i0) false 20 = Ok ([jm; js], ((dv', Fin base), Z.of_nat (i0 + 1))) /\
    is_rect jm d1 N D (fun n k => M1 n k - C1 n k) /\ is_rect js d2 N D (fun n k => M2 n k - C2 n k).
Proof.
  intros D1 e base Hf Hl Hs Hz HN Hb Ef R1 R2 Ec R3 R4.
  destruct (gauss_samples loc ls d D N mu s rng z Hl Hs Hz) as (dist & smp & Ed & Es & Hhd & Rsmp).
  destruct (@baseline_update P f phi decay v zd heuristic [loc; ls] (primal smp) D1 dv N D i0 _ Hf HN Rsmp Hb) as (dv' & Eu).
  destruct (@cv_algebra P _ f (moving_avg_baseline (Fin decay) zd heuristic) est [loc; ls] BNormal rng N D 20 ((dv, Fin v), Z.of_nat i0) ((dv', Fin base), Z.of_nat (i0 + 1)) dist smp [fm; fs] [cm; cs] false (fun _ => 1) (fun _ => D1) (fun _ => D1)
    (fun i => match i with 0%nat => M1 | _ => M2 end) (fun i => match i with 0%nat => C1 | _ => C2 end) (fun _ => base) (fun _ _ _ => 0) base (fun _ _ => 0)) as (js & Ejs & Ljs & Hjs); auto.
  - discriminate.
  - intros p Hp. now apply (@basis2_in P loc ls d D mu s).
  - intros [|[|i]] Hi; cbn in Hi; [exists fm|exists fs|lia]; auto.
  - intros [|[|i]] Hi; cbn in Hi; [exists cm|exists cs|lia]; auto.
  - destruct js as [|jm [|js [|? ?]]]; try discriminate Ljs. destruct (Hjs 0%nat jm eq_refl) as (d1 & H1). destruct (Hjs 1%nat js eq_refl) as (d2 & H2). exists jm, js, dv', d1, d2. split; [exact Ejs|].
    assert (E0 : forall k : nat, mean_of N (fun _ => 0) = 0) by (intros _; apply mean_const; exact HN).
    split; (eapply rect_ext; [|eassumption]); intros n k _ _; cbv beta; rewrite E0 by exact k; ring.
Qed.

(*@ C58_baseline_score : With the score-function estimator the baseline b (the value after its update on the drawn samples) is subtracted from the function: entry [n, k] is (phi(x_n) - b) times the score, for the mean and the log-scale. *)
Lemma baseline_score : forall `{P : Platform} (f : gt dual -> dual) (phi : rvec -> R) (decay v : R) (zd heuristic : bool) (loc ls : gt XR) (d dv : fdt) (D N i0 : nat) (mu s : rvec) (rng : p_key P) (z : nat -> nat -> R),
  let D1 := promote (@defdt (XROps P)) d in
  let e := it_decay heuristic decay i0 in
  let b := (e * v + (1 - e) * mean_of N (fun n => phi (gauss mu s z n))) / debias zd e i0 in
  (forall v0, f (dpoint D1 D v0 (fun _ => 0)) = fd (phi v0) 0) -> is_vec loc d D mu -> is_vec ls d D s -> draws_are (p_knormal P rng (@defdt (XROps P)) [N; D]) N D z -> (0 < N)%nat -> debias zd e i0 <> 0 ->
  exists jm js dv' d1 d2, control_variates_jacobians f (moving_avg_baseline (Fin decay) zd heuristic) score_function_jacobians [loc; ls] BNormal rng N ((dv, Fin v), Z.of_nat i0) false 20 = Ok ([jm; js], ((dv', Fin b), Z.of_nat (i0 + 1))) /\
    is_rect jm d1 N D (fun n k => (phi (gauss mu s z n) - b) * ((gauss mu s z n k - mu k) / exp (s k) ^ 2)) /\
    is_rect js d2 N D (fun n k => (phi (gauss mu s z n) - b) * (((gauss mu s z n k - mu k) / exp (s k)) ^ 2 - 1)).
Proof.
  intros P f phi decay v zd heuristic loc ls d dv D N i0 mu s rng z D1 e b Hf Hl Hs Hz HN Hb.
  assert (Hc : computes f D1 D phi).
  { intros v0. unfold valf. etransitivity; [|exact (f_equal fst (Hf v0))]. f_equal. f_equal. unfold lift, point, dpoint, emap. cbn [dat dt shp]. f_equal. rewrite map_map. reflexivity. }
  destruct (@score P f phi loc ls d D N mu s rng z Hf Hl Hs Hz) as (fm & fs & Ef & R1 & R2).
  destruct (@score P (fun _ => fd b 0) (fun _ => b) loc ls d D N mu s rng z (fun _ => eq_refl) Hl Hs Hz) as (cm & cs & Ec & R3 & R4).
  destruct (@baseline_jac P f phi decay v zd heuristic score_function_jacobians loc ls d dv D N i0 mu s rng z fm fs cm cs _ _ _ _ Hc Hl Hs Hz HN Hb Ef R1 R2 Ec R3 R4) as (jm & js & dv' & d1 & d2 & E & Q1 & Q2).
  exists jm, js, dv', d1, d2. split; [exact E|]. split; [eapply rect_ext; [|exact Q1]|eapply rect_ext; [|exact Q2]]; intros n k _ _; cbv beta; ring.
Qed.

(*@ C58_baseline_no_effect : With the pathwise estimator, and with the measure-valued one (coupled or not), the baseline changes nothing: the jacobians are those of the estimator alone. *)
Lemma baseline_no_effect : forall `{P : Platform} (f : gt dual -> dual) (phi : rvec -> R) (grad : rvec -> rvec) (decay v : R) (zd heuristic coupling : bool) (loc ls : gt XR) (d dv : fdt) (D N i0 : nat) (mu s : rvec) (rng pos neg : p_key P) (z w w' m u z' : nat -> nat -> R),
  let D1 := promote (@defdt (XROps P)) d in
  let e := it_decay heuristic decay i0 in
  is_vec loc d D mu -> is_vec ls d D s -> draws_are (p_knormal P rng (@defdt (XROps P)) [N; D]) N D z -> (0 < N)%nat -> debias zd e i0 <> 0 -> computes f D1 D phi ->
  (differentiates f D1 D phi grad ->
   exists jm js st' d1 d2, control_variates_jacobians f (moving_avg_baseline (Fin decay) zd heuristic) pathwise_jacobians [loc; ls] BNormal rng N ((dv, Fin v), Z.of_nat i0) false 20 = Ok ([jm; js], st') /\
     is_rect jm d1 N D (fun n k => grad (gauss mu s z n) k) /\ is_rect js d2 N D (fun n k => grad (gauss mu s z n) k * (exp (s k) * z n k))) /\
  (p_ksplit P rng 2 = [pos; neg] -> draws_are (p_kdraw P LWeibull pos [N; D]) N D w -> draws_are (p_kdraw P LWeibull (if coupling then pos else neg) [N; D]) N D w' -> draws_are (p_kdraw P LMaxwell pos [N; D]) N D m ->
   (if coupling then draws_are (p_kdraw P LUniform neg [N; D]) N D u else draws_are (p_knormal P neg (@defdt (XROps P)) [N; D]) N D z') ->
   exists jm js st' d1 d2 gm gs A B, control_variates_jacobians f (moving_avg_baseline (Fin decay) zd heuristic) (measure_valued_jacobians coupling) [loc; ls] BNormal rng N ((dv, Fin v), Z.of_nat i0) false 20 = Ok ([jm; js], st') /\
     measure_valued_jacobians coupling f [loc; ls] BNormal rng N = Ok [gm; gs] /\ is_rect gm D1 N D A /\ is_rect gs D1 N D B /\ is_rect jm d1 N D A /\ is_rect js d2 N D B).
Proof.
  intros P f phi grad decay v zd heuristic coupling loc ls d dv D N i0 mu s rng pos neg z w w' m u z' D1 e Hl Hs Hz HN Hb Hf.
  set (b := (e * v + (1 - e) * mean_of N (fun n => phi (gauss mu s z n))) / debias zd e i0). split.
  - intros Hd. destruct (@pathwise P f phi grad loc ls d D N mu s rng z Hd Hl Hs Hz) as (fm & fs & Ef & R1 & R2).
    destruct (@pathwise P (fun _ => fd b 0) (fun _ => b) (fun _ _ => 0) loc ls d D N mu s rng z) as (cm & cs & Ec & R3 & R4); auto.
    { intros v0 t. apply fd_ext; [reflexivity|]. rewrite (Sig_ext D _ (fun _ => 0)) by (intros; ring). now rewrite Sig_zero. }
    destruct (@baseline_jac P f phi decay v zd heuristic pathwise_jacobians loc ls d dv D N i0 mu s rng z fm fs cm cs _ _ _ _ Hf Hl Hs Hz HN Hb Ef R1 R2 Ec R3 R4) as (jm & js & dv' & d1 & d2 & E & Q1 & Q2).
    exists jm, js. eexists _, d1, d2. split; [exact E|]. split; [eapply rect_ext; [|exact Q1]|eapply rect_ext; [|exact Q2]]; intros n k _ _; cbv beta; ring.
  - intros Hk Hw Hw' Hm Hv. destruct (@mv_jacobians P f phi loc ls d D N mu s rng pos neg coupling z w w' m u z' Hf Hl Hs Hk Hz Hw Hw' Hm Hv) as (fm & fs & Ef & R1 & R2).
    destruct (@mv_constant P (fun _ => fd b 0) b loc ls d D N mu s rng pos neg coupling z w w' m u z' (fun _ => eq_refl) Hl Hs Hk Hz Hw Hw' Hm Hv) as (cm & cs & Ec & R3 & R4).
    destruct (@baseline_jac P f phi decay v zd heuristic (measure_valued_jacobians coupling) loc ls d dv D N i0 mu s rng z fm fs cm cs _ _ _ _ Hf Hl Hs Hz HN Hb Ef R1 R2 Ec R3 R4) as (jm & js & dv' & d1 & d2 & E & Q1 & Q2).
    exists jm, js. eexists _, d1, d2, fm, fs, _, _. split; [exact E|]. split; [exact Ef|]. split; [exact R1|]. split; [exact R2|]. split; [eapply rect_ext; [|exact Q1]|eapply rect_ext; [|exact Q2]]; intros n k _ _; cbv beta; ring.
Qed.
