(** power_iteration (C53). *)
From Verif Require Export TMat.
From Coq Require Import List Psatz Reals Qreals Lia.
Import ListNotations.
Open Scope R_scope.
(*@header
From Coq Require Import List.
Import ListNotations.
Open Scope R_scope.
*)

(** ** Specification *)
(** The loop `while cond(s): s = body(s)` started in [s] stops after exactly [k] steps in [t]. *)
Inductive exits {S} (cond : S -> bool) (body : S -> result S) : S -> nat -> S -> Prop :=
| exits_stop s : cond s = false -> exits cond body s 0 s
| exits_step s s' k t : cond s = true -> body s = Ok s' -> exits cond body s' k t -> exits cond body s (Datatypes.S k) t.
(** A^k v *)
Fixpoint krylov (n : nat) (A : rmat) (v : rvec) (k : nat) : rvec := match k with O => v | S k => mv n A (krylov n A v k) end.
(** v.Av / v.v *)
Definition rayleigh (n : nat) (A : rmat) (v : rvec) : R := ip n v (mv n A v) / ip n v v.
(** The estimate after k steps: 0 before the first, then the Rayleigh quotient of A^(k-1) v. *)
Definition estimate (n : nat) (A : rmat) (v : rvec) (k : nat) : R := match k with O => 0 | S k => rayleigh n A (krylov n A v k) end.

(** ** Loops *)
Lemma loop_exits {S} (cond : S -> bool) (body : S -> result S) (c : S -> Z) (N : Z) (I : S -> Prop) :
  (forall s, cond s = true -> (c s < N)%Z) ->
  (forall s, I s -> cond s = true -> exists s', body s = Ok s' /\ I s' /\ c s' = (c s + 1)%Z) ->
  forall fuel s, I s -> (N <= c s + Z.of_nat fuel)%Z ->
  exists k t, exits cond body s k t /\ (k <= fuel)%nat /\ while_loop fuel cond body s = Ok t /\ I t /\ c t = (c s + Z.of_nat k)%Z.
Proof.
  intros Hc Hb. induction fuel as [|fuel IH]; intros s Is Hf.
  - exists 0%nat, s. assert (E : cond s = false) by (destruct (cond s) eqn:E; [apply Hc in E; lia|reflexivity]).
    cbn. rewrite E. repeat split; auto; [now constructor|lia].
  - cbn. destruct (cond s) eqn:E.
    + destruct (Hb s Is E) as (s' & E' & Is' & Cs'). rewrite E'. cbn [rbind].
      destruct (IH s' Is') as (k & t & H1 & H2 & H3 & H4 & H5); [lia|]. exists (Datatypes.S k), t. repeat split; auto; [econstructor; eauto|lia|lia].
    + exists 0%nat, s. repeat split; auto; [now constructor|lia|lia].
Qed.

(*@ C53_terminates : in any arithmetic, on every square matrix and whatever start vector is drawn, the loop of power_iteration stops after at most num_iters steps (none if num_iters <= 0) and the call returns a vector of the size and dtype of the matrix. *)
Lemma power_terminates : forall `{O : Ops} (draw : nat -> F) (matrix : tensor) (n : nat) (N : Z) (tol : F), shp matrix = [n; n] ->
  exists k st v s, exits (pi_cond N) (pi_body matrix tol) (0%Z, tab (dt matrix) [n] (fun o => fcast (dt matrix) (draw (hd 0%nat o))), fcast (dt matrix) fzero, true) k st /\
  (k <= Z.to_nat N)%nat /\ power_iteration draw matrix N tol = Ok (v, s) /\ s = snd (fst st) /\ dt v = dt matrix /\ shp v = [n].
Proof.
  intros O draw matrix n N tol Sm. unfold power_iteration. rewrite Sm, Nat.eqb_refl.
  set (st0 := (0%Z, tab (dt matrix) [n] (fun o => fcast (dt matrix) (draw (hd 0%nat o))), fcast (dt matrix) fzero, true) : pi_state).
  pose (I := fun st : pi_state => dt (snd (fst (fst st))) = dt matrix /\ shp (snd (fst (fst st))) = [n] /\ twf (snd (fst (fst st)))).
  assert (Hdiv : forall v : tensor, dt v = dt matrix -> shp v = [n] -> twf v -> exists r, bin fdiv v (scalar (dt matrix) (norm v)) = Ok r /\ dt r = dt matrix /\ shp r = [n] /\ twf r).
  { intros v Dv Sv Wv. rewrite bin_scalar_r by assumption. rewrite Dv, promote_same. eexists. split; [reflexivity|]. cbn [dt shp]. repeat split; auto. unfold twf. cbn [dat shp]. rewrite map_length. exact Wv. }
  destruct (loop_exits (pi_cond N) (pi_body matrix tol) (fun st => fst (fst (fst st))) N I) with (fuel := Z.to_nat N) (s := st0) as (k & st & H1 & H2 & H3 & H4 & _).
  - intros [[[i v] s] r] H. cbn in H. apply andb_prop in H as [H _]. cbn. now apply Z.ltb_lt.
  - intros [[[i v] s] r] (Dv & Sv & Wv) _. cbn in Dv, Sv, Wv. destruct (Hdiv v Dv Sv Wv) as (w & Ew & Dw & Sw & Ww). unfold pi_body. rewrite Ew. cbn [rbind].
    unfold matvec. rewrite Sm, Sw, Nat.eqb_refl. cbn [rbind]. eexists. split; [reflexivity|]. split; [|reflexivity].
    unfold I. cbn [fst snd]. rewrite Dw, promote_same. split; [reflexivity|]. split; [reflexivity|apply tab_wf].
  - unfold I, st0. cbn [fst snd]. split; [reflexivity|]. split; [reflexivity|apply tab_wf].
  - cbn. lia.
  - fold st0. rewrite H3. destruct st as [[[i v] s] r]. cbn [rbind]. destruct H4 as (Dv & Sv & Wv). cbn in Dv, Sv, Wv.
    destruct (Hdiv v Dv Sv Wv) as (w & Ew & Dw & Sw & _). rewrite Ew. cbn [rbind]. exists k, (i, v, s, r), w, s. repeat split; auto.
Qed.
(*@ C53_rejects : a matrix that is not of rank 2 or not square is rejected. *)
Lemma power_rejects : forall `{O : Ops} (draw : nat -> F) (matrix : tensor) (N : Z) (tol : F), (forall n, shp matrix <> [n; n]) ->
  exists e, power_iteration draw matrix N tol = Err e.
Proof.
  intros O draw matrix N tol H. unfold power_iteration. destruct (shp matrix) as [|r [|c [|? ?]]]; try (eexists; reflexivity).
  destruct (Nat.eqb_spec r c) as [->|]; [now destruct (H c)|]. eexists; reflexivity.
Qed.

(** ** Rayleigh quotients *)
Section Rayleigh.
  Variables (n : nat) (A : rmat).
  Lemma krylov_S v k : krylov n A v (S k) = mv n A (krylov n A v k). Proof. reflexivity. Qed.
  Lemma ray_scal c x : c <> 0 -> rayleigh n A (fun i => c * x i) = rayleigh n A x.
  Proof.
    intros Hc. unfold rayleigh. rewrite (mv_scal n A c x), !ip_scal_l, !ip_scal_r.
    destruct (Req_dec (ip n x x) 0) as [E|E]; [|field; auto].
    rewrite E. rewrite !Rmult_0_r. unfold Rdiv. rewrite Rinv_0, !Rmult_0_r. reflexivity.
  Qed.
  Lemma kry_nonzero v : msym n A -> ~ vzero n (mv n A v) -> forall k, ~ vzero n (krylov n A v k).
  Proof.
    intros HS Hv. assert (H1 : forall k, ~ vzero n (krylov n A v (S k))).
    { induction k as [|k IH]; [exact Hv|]. intros Z. apply IH. rewrite <- ip_zero.
      rewrite krylov_S at 1. rewrite <- ip_sym by exact HS. unfold ip. rewrite <- (Sig_zero n). apply Sig_ext. intros i Hi.
      rewrite krylov_S in Z. rewrite (Z i Hi). ring. }
    intros [|k]; [|apply H1]. intros Z. apply Hv. now apply mv_zero.
  Qed.
  Lemma pos_ip x : ~ vzero n x -> 0 < ip n x x.
  Proof. intros H. destruct (ip_nonneg n x) as [|E]; [assumption|]. exfalso. apply H, ip_zero. now symmetry. Qed.
  Lemma pos_vnorm x : ~ vzero n x -> 0 < vnorm n x.
  Proof. intros H. apply sqrt_lt_R0. now apply pos_ip. Qed.
  Lemma ray_nonneg x : mpsd n A -> ~ vzero n x -> 0 <= rayleigh n A x.
  Proof. intros Q H. apply pos_ip in H. unfold rayleigh. apply Rmult_le_pos; [apply Q|]. left. now apply Rinv_0_lt_compat. Qed.
  Lemma ray_le x L : (forall w, ip n w (mv n A w) <= L * ip n w w) -> ~ vzero n x -> rayleigh n A x <= L.
  Proof.
    intros HL H. apply pos_ip in H. unfold rayleigh. apply Rmult_le_reg_r with (r := ip n x x); [exact H|].
    unfold Rdiv. rewrite Rmult_assoc, Rinv_l by lra. rewrite Rmult_1_r. apply HL.
  Qed.
  (** The quotients increase along A^k v. *)
  Lemma ray_mono x : msym n A -> mpsd n A -> ~ vzero n (mv n A x) -> rayleigh n A x <= rayleigh n A (mv n A x).
  Proof.
    intros HS Q H. pose proof (kry_nonzero x HS H 0) as Hx. cbn in Hx. apply pos_ip in H. apply pos_ip in Hx. unfold rayleigh.
    set (m0 := ip n x x) in *. set (m2 := ip n (mv n A x) (mv n A x)) in *. set (m1 := ip n x (mv n A x)). set (m3 := ip n (mv n A x) (mv n A (mv n A x))).
    assert (C1 : m1 * m1 <= m0 * m2) by apply ip_cs.
    assert (C2 : m2 * m2 <= m1 * m3).
    { pose proof (form_cs n A x (mv n A x) HS Q) as C. rewrite (ip_sym n A x (mv n A x) HS) in C. exact C. }
    assert (P1 : 0 <= m1) by apply Q. assert (P3 : 0 <= m3) by apply Q.
    assert (P1' : 0 < m1) by (destruct P1 as [|E]; [assumption|]; rewrite <- E in C2; nra).
    apply Rmult_le_reg_r with (r := m0 * m2); [nra|]. replace (m1 / m0 * (m0 * m2)) with (m1 * m2) by (field; lra). replace (m3 / m2 * (m0 * m2)) with (m3 * m0) by (field; lra).
    apply Rmult_le_reg_l with (r := m1); [exact P1'|]. nra.
  Qed.
End Rayleigh.

(** ** The loop in exact arithmetic *)
Section Exact.
  Context `{P : Platform}.
  Notation xr := (XROps P).
  Variables (n : nat) (A : rmat) (matrix : gt XR) (d : fdt) (tol : R).
  Hypothesis HA : is_mat matrix d n A.

  Lemma div_norm (v : gt XR) x : is_vec v d n x -> ~ vzero n x ->
    exists r, @bin xr (@fdiv xr) v (@scalar xr d (@norm xr v)) = Ok r /\ is_vec r d n (fun i => / vnorm n x * x i).
  Proof.
    intros Hv Hx. pose proof (vec_norm v d n x Hv) as En. rewrite En.
    destruct (bin_vs (@fdiv xr) v d d (Fin (vnorm n x)) n x Hv) as (r & Er & Dr & Sr & Wr & Hr). exists r. split; [exact Er|].
    rewrite promote_same in Dr. apply vec_intro; auto. intros i Hi. rewrite (Hr i Hi). cbn [fdiv XROps]. apply pos_vnorm in Hx. rewrite xdiv_fin by lra. f_equal. field. lra.
  Qed.
  (** State of the loop after [k] steps, all started from [v]. *)
  Definition at_step (v : rvec) (k : nat) (st : @pi_state xr) : Prop :=
    let '(i, w, s, run) := st in
    i = Z.of_nat k /\ (exists c, 0 < c /\ is_vec w d n (fun i => c * krylov n A v k i)) /\ s = Fin (estimate n A v k) /\
    run = match k with O => true | S k' => if Rlt_dec tol (Rabs (estimate n A v k - estimate n A v k')) then true else false end.
  Lemma step_ok v k st : at_step v k st -> ~ vzero n (krylov n A v k) -> exists st', @pi_body xr matrix (Fin tol) st = Ok st' /\ at_step v (S k) st'.
  Proof.
    destruct st as [[[i w] s] run]. intros (-> & (c & Hc & Hw) & -> & _) Hk. unfold pi_body. pose proof HA as (Dm & Sm & Wm & _). nx. rewrite Dm.
    set (x := krylov n A v k) in *.
    assert (Hcx : ~ vzero n (fun i => c * x i)).
    { intros Z. apply Hk. intros i Hi. specialize (Z i Hi). cbn in Z. apply Rmult_integral in Z as [Z|Z]; [lra|exact Z]. }
    destruct (div_norm w _ Hw Hcx) as (u & Eu & Hu). nx. rewrite Eu. cbn [rbind].
    destruct (matvec_val matrix u d d n A _ HA Hu) as (sv & Es & Hs). nx. rewrite Es. cbn [rbind]. rewrite promote_same in Hs.
    eexists. split; [reflexivity|]. unfold at_step. split; [lia|].
    set (g := / vnorm n (fun i => c * x i) * c).
    assert (Hg : 0 < g). { unfold g. apply Rmult_lt_0_compat; [apply Rinv_0_lt_compat, pos_vnorm, Hcx|exact Hc]. }
    assert (Hu' : is_vec u d n (fun i => g * x i)) by (revert Hu; apply vec_ext; intros i _; unfold g; ring).
    assert (Hs' : is_vec sv d n (fun i => g * mv n A x i)).
    { revert Hs. apply vec_ext. rewrite <- (mv_scal n A g x). apply mv_proper; [reflexivity|]. intros i _. unfold g. ring. }
    split; [exists g; split; [exact Hg|exact Hs']|].
    assert (Ed : @vdot xr u sv = Fin (rayleigh n A x)).
    { rewrite (vdot_val u sv d n _ _ Hu' Hs'). f_equal. rewrite ip_scal_l, ip_scal_r. unfold rayleigh. pose proof (pos_ip n x Hk) as Hp.
      assert (Eg : g * g * ip n x x = 1).
      { unfold g. rewrite vnorm_scal, Rabs_right by lra. rewrite <- (vnorm_sq n x). pose proof (pos_vnorm n x Hk). field. split; lra. }
      field_simplify; [|lra]. apply Rmult_eq_reg_r with (r := ip n x x); [|lra]. unfold Rdiv. rewrite (Rmult_assoc _ (/ ip n x x)), Rinv_l by lra. replace (ip n x (mv n A x)) with (g * g * ip n x x * ip n x (mv n A x)) at 2 by (rewrite Eg; ring). ring. }
    split; [exact Ed|]. etransitivity; [apply f_equal; apply f_equal; apply f_equal2; [exact Ed|reflexivity]|]. reflexivity.
  Qed.
  Lemma loop_ok v N : (0 <= N)%Z -> (forall k, (Z.of_nat k < N)%Z -> ~ vzero n (krylov n A v k)) ->
    forall fuel k st, at_step v k st -> (N <= Z.of_nat k + Z.of_nat fuel)%Z -> (Z.of_nat k <= N)%Z -> exists k' st', (k <= k')%nat /\ (Z.of_nat k' <= N)%Z /\ @while_loop _ fuel (@pi_cond xr N) (@pi_body xr matrix (Fin tol)) st = Ok st' /\ at_step v k' st' /\
      (forall j, (k <= j)%nat -> (j < k')%nat -> match j with O => True | S j' => tol < Rabs (estimate n A v j - estimate n A v j') end) /\
      (Z.of_nat k' = N \/ match k' with O => False | S j' => Rabs (estimate n A v k' - estimate n A v j') <= tol end).
  Proof.
    intros HN Hnz. induction fuel as [|fuel IH]; intros k st Hst Hf Hk.
    - assert (E : Z.of_nat k = N) by lia. exists k, st. cbn. destruct st as [[[i w] s] run]. pose proof Hst as (Hi & _). cbn. replace (i <? N)%Z with false by (symmetry; apply Z.ltb_ge; lia). cbn.
      split; [lia|]. split; [lia|]. split; [reflexivity|]. split; [exact Hst|]. split; [intros; lia|]. now left.
    - destruct (Z.eq_dec (Z.of_nat k) N) as [E|E].
      { exists k, st. cbn. destruct st as [[[i w] s] run]. pose proof Hst as (Hi & _). cbn. replace (i <? N)%Z with false by (symmetry; apply Z.ltb_ge; lia). cbn.
        split; [lia|]. split; [lia|]. split; [reflexivity|]. split; [exact Hst|]. split; [intros; lia|]. now left. }
      assert (Hc : @pi_cond xr N st = snd st). { destruct st as [[[i w] s] run]. pose proof Hst as (Hi & _). cbn. replace (i <? N)%Z with true by (symmetry; apply Z.ltb_lt; lia). reflexivity. }
      assert (Hr : snd st = match k with O => true | S k' => if Rlt_dec tol (Rabs (estimate n A v k - estimate n A v k')) then true else false end) by (destruct st as [[[i w] s] run]; now destruct Hst as (_ & _ & _ & ->)).
      cbn [while_loop]. rewrite Hc. destruct (snd st) eqn:Er.
      + destruct (step_ok v k st Hst) as (st1 & E1 & H1); [apply Hnz; lia|]. rewrite E1. cbn [rbind].
        destruct (IH (S k) st1 H1) as (k' & st' & G1 & G2 & G3 & G4 & G5 & G6); [lia|lia|]. exists k', st'. split; [lia|]. split; [lia|]. split; [exact G3|]. split; [exact G4|]. split; [|exact G6].
        intros j Hj1 Hj2. destruct (Nat.eq_dec j k) as [->|Hne]; [|apply G5; lia]. destruct k as [|k0]; [exact I|]. destruct (Rlt_dec _ _) as [Hl|]; [exact Hl|discriminate].
      + destruct k as [|k0]; [discriminate|]. destruct (Rlt_dec _ _) as [|Hl]; [discriminate|]. exists (S k0), st. split; [lia|]. split; [lia|]. split; [reflexivity|]. split; [exact Hst|]. split; [intros; lia|]. right. lra.
  Qed.
End Exact.

(*@ C53_value : For every square matrix A of finite entries and every start vector v such that A^j v <> 0 for all j <= num_iters, with num_iters >= 1: the call performs some number k of steps, 1 <= k <= num_iters; it returns the vector A^k v / ||A^k v|| and the Rayleigh quotient of A^(k-1) v; and k is the first step at which two successive estimates differ by at most the tolerance (or k = num_iters). *)
Lemma power_value : forall `{P : Platform} (draw : nat -> F) (matrix : tensor) (d : fdt) (n : nat) (A : rmat) (v : rvec) (N : Z) (tol : R),
  is_mat matrix d n A -> (forall i, draw i = Fin (v i)) -> (1 <= N)%Z -> (forall j, (Z.of_nat j <= N)%Z -> ~ vzero n (krylov n A v j)) ->
  exists (k : nat) (out : tensor), (1 <= k)%nat /\ (Z.of_nat k <= N)%Z /\
  power_iteration draw matrix N (Fin tol) = Ok (out, Fin (rayleigh n A (krylov n A v (k - 1)))) /\
  is_vec out d n (fun i => krylov n A v k i / vnorm n (krylov n A v k)) /\
  (forall j, (1 <= j)%nat -> (j < k)%nat -> tol < Rabs (estimate n A v j - estimate n A v (j - 1))) /\
  (Z.of_nat k = N \/ Rabs (estimate n A v k - estimate n A v (k - 1)) <= tol).
Proof.
  intros P draw matrix d n A v N tol HA Hd HN Hnz. pose proof HA as (Dm & Sm & Wm & _). unfold power_iteration. nx. rewrite Sm, Nat.eqb_refl, Dm.
  set (st0 := (0%Z, tab d [n] (fun o => @fcast (XROps P) d (draw (hd 0%nat o))), @fcast (XROps P) d fzero, true) : @pi_state (XROps P)).
  assert (H0 : at_step n A d tol v 0 st0).
  { unfold at_step, st0. split; [reflexivity|]. split; [exists 1; split; [lra|]; apply tabv_vec; intros i Hi; cbn; rewrite Hd; f_equal; ring|]. split; [cbn; now rewrite Q2R_0|reflexivity]. }
  destruct (loop_ok n A matrix d tol HA v N ltac:(lia) ltac:(intros k Hk; apply Hnz; lia) (Z.to_nat N) 0 st0 H0) as (k & st & _ & G2 & G3 & G4 & G5 & G6); [lia|lia|].
  nx. fold st0. rewrite G3. destruct st as [[[i w] s] run]. cbn [rbind]. destruct G4 as (_ & (c & Hc & Hw) & Es & _). rewrite Es.
  destruct k as [|k]; [destruct G6; [lia|easy]|].
  assert (Hk : ~ vzero n (krylov n A v (S k))) by (apply Hnz; exact G2).
  assert (Hcx : ~ vzero n (fun i => c * krylov n A v (S k) i)). { intros Z. apply Hk. intros j Hj. specialize (Z j Hj). cbn beta in Z. apply Rmult_integral in Z as [Z|Z]; [lra|exact Z]. }
  destruct (div_norm n d w _ Hw Hcx) as (u & Eu & Hu). nx. rewrite Eu. cbn [rbind]. exists (S k), u. split; [lia|]. split; [exact G2|]. cbn [Nat.sub]. rewrite Nat.sub_0_r. split; [reflexivity|].
  split. { revert Hu. apply vec_ext. intros j _. rewrite vnorm_scal, Rabs_right by lra. pose proof (pos_vnorm n _ Hk). field. split; lra. }
  split; [|exact G6]. intros j Hj1 Hj2. specialize (G5 j ltac:(lia) Hj2). destruct j as [|j]; [lia|]. cbn [Nat.sub]. rewrite Nat.sub_0_r. exact G5.
Qed.

(*@ C53_symmetric : for a symmetric matrix it suffices that A v <> 0; the returned vector then has norm 1 and the returned value s is u.Au for the unit vector u whose image Au has the direction of the returned vector. *)
Lemma power_symmetric : forall `{P : Platform} (draw : nat -> F) (matrix : tensor) (d : fdt) (n : nat) (A : rmat) (v : rvec) (N : Z) (tol : R),
  is_mat matrix d n A -> (forall i, draw i = Fin (v i)) -> (1 <= N)%Z -> msym n A -> ~ vzero n (mv n A v) ->
  exists out s w u, power_iteration draw matrix N (Fin tol) = Ok (out, Fin s) /\ is_vec out d n w /\
  vnorm n w = 1 /\ vnorm n u = 1 /\ s = ip n u (mv n A u) /\ veq n w (fun i => mv n A u i / vnorm n (mv n A u)).
Proof.
  intros P draw matrix d n A v N tol HA Hd HN HS Hv. pose proof (kry_nonzero n A v HS Hv) as Hnz.
  destruct (power_value draw matrix d n A v N tol HA Hd HN ltac:(intros; apply Hnz)) as (k & out & Hk & _ & E & Ho & _).
  set (x := krylov n A v (k - 1)) in *. pose proof (Hnz (k - 1)%nat) as Hx. fold x in Hx.
  assert (Ek : krylov n A v k = mv n A x) by (unfold x; destruct k; [lia|]; cbn; now rewrite Nat.sub_0_r).
  pose proof (Hnz k) as Hy. rewrite Ek in Ho, Hy. pose proof (pos_vnorm n x Hx) as Px. pose proof (pos_vnorm n _ Hy) as Py.
  eexists out, _, _, (fun i => / vnorm n x * x i). split; [exact E|]. split; [exact Ho|].
  assert (Hn1 : vnorm n (fun i => / vnorm n x * x i) = 1). { rewrite vnorm_scal, Rabs_right by (apply Rle_ge; left; now apply Rinv_0_lt_compat). field. lra. }
  split. { rewrite (vnorm_proper n _ (fun i => / vnorm n (mv n A x) * mv n A x i)) by (intros i _; field; lra). rewrite vnorm_scal, Rabs_right by (apply Rle_ge; left; now apply Rinv_0_lt_compat). field. lra. }
  split; [exact Hn1|]. split.
  - rewrite <- (ray_scal n A (/ vnorm n x) x) by (apply Rgt_not_eq; now apply Rinv_0_lt_compat). unfold rayleigh. rewrite <- (vnorm_sq n (fun i => / vnorm n x * x i)), Hn1. field.
  - intros i Hi. cbn beta. rewrite (mv_scal n A (/ vnorm n x) x i Hi). rewrite (vnorm_proper n _ _ (mv_scal n A (/ vnorm n x) x)), vnorm_scal, Rabs_right by (apply Rle_ge; left; now apply Rinv_0_lt_compat). field. split; lra.
Qed.

(*@ C53_bounds : for a symmetric positive semidefinite matrix and a start vector v with A v <> 0, the returned value is non-negative, at least the Rayleigh quotient of v, and at most every upper bound L of the quadratic form (in particular at most the largest eigenvalue). *)
Lemma power_bounds : forall `{P : Platform} (draw : nat -> F) (matrix : tensor) (d : fdt) (n : nat) (A : rmat) (v : rvec) (N : Z) (tol : R),
  is_mat matrix d n A -> (forall i, draw i = Fin (v i)) -> (1 <= N)%Z -> msym n A -> mpsd n A -> ~ vzero n (mv n A v) ->
  exists out s, power_iteration draw matrix N (Fin tol) = Ok (out, Fin s) /\ 0 <= s /\ ip n v (mv n A v) / ip n v v <= s /\
  forall L, (forall w, ip n w (mv n A w) <= L * ip n w w) -> s <= L.
Proof.
  intros P draw matrix d n A v N tol HA Hd HN HS HQ Hv. pose proof (kry_nonzero n A v HS Hv) as Hnz.
  destruct (power_value draw matrix d n A v N tol HA Hd HN ltac:(intros; apply Hnz)) as (k & out & Hk & _ & E & _).
  exists out. eexists. split; [exact E|]. split; [apply ray_nonneg; [exact HQ|apply Hnz]|]. split; [|intros L HL; apply ray_le; [exact HL|apply Hnz]].
  change (rayleigh n A (krylov n A v 0) <= rayleigh n A (krylov n A v (k - 1))). generalize (k - 1)%nat. intros j. induction j as [|j IH]; [lra|]. eapply Rle_trans; [exact IH|]. apply ray_mono; auto. apply (Hnz (S j)).
Qed.

(*@ C53_converges : if a symmetric matrix has a unit eigenvector e with eigenvalue lam > 0, contracts the orthogonal complement of e by mu < lam, and the start vector has a component a <> 0 along e and a remainder w orthogonal to e, then a call that makes all num_iters = k+1 steps (e.g. with a negative tolerance) returns a value within 2 lam (mu/lam)^(2k) |w|^2 / a^2 of lam. *)
Lemma power_converges : forall `{P : Platform} (draw : nat -> F) (matrix : tensor) (d : fdt) (n : nat) (A : rmat) (e w : rvec) (a lam mu tol : R) (k : nat),
  is_mat matrix d n A -> msym n A -> ip n e e = 1 -> veq n (mv n A e) (fun i => lam * e i) -> 0 <= mu < lam ->
  (forall x, ip n x e = 0 -> ip n (mv n A x) (mv n A x) <= mu * mu * ip n x x) ->
  a <> 0 -> ip n w e = 0 -> (forall i, draw i = Fin (a * e i + w i)) -> tol < 0 ->
  exists out s, power_iteration draw matrix (Z.of_nat (S k)) (Fin tol) = Ok (out, Fin s) /\
  Rabs (s - lam) <= 2 * lam * (mu / lam) ^ (2 * k) * (ip n w w / (a * a)).
Proof.
  intros P draw matrix d n A e w a lam mu tol k HA HS He Hle Hmu Hcon Ha Hwe Hd Ht.
  set (v := fun i => a * e i + w i).
  (* A^j w stays orthogonal and is contracted *)
  assert (Hw : forall j, ip n (krylov n A w j) e = 0 /\ ip n (krylov n A w j) (krylov n A w j) <= mu ^ (2 * j) * ip n w w).
  { induction j as [|j [I1 I2]]; [split; [exact Hwe|cbn; lra]|]. split.
    - rewrite krylov_S, <- ip_sym by exact HS. rewrite Hle, ip_scal_r, I1. ring.
    - rewrite krylov_S. eapply Rle_trans; [apply Hcon; exact I1|]. replace (2 * S j)%nat with (S (S (2 * j))) by lia. cbn [pow].
      rewrite (Rmult_assoc mu (mu * _)), (Rmult_assoc mu (mu ^ (2 * j))), <- Rmult_assoc. apply Rmult_le_compat_l; [nra|exact I2]. }
  assert (Hk : forall j, veq n (krylov n A v j) (fun i => a * lam ^ j * e i + krylov n A w j i)).
  { induction j as [|j IH]; [intros i _; unfold v; cbn; ring|]. rewrite krylov_S, IH. rewrite (mv_add n A (fun i => a * lam ^ j * e i) (krylov n A w j)). intros i Hi. rewrite (mv_scal n A (a * lam ^ j) e i Hi), (Hle i Hi), krylov_S. cbn [pow]. ring. }
  assert (Hsq : forall j, ip n (krylov n A v j) (krylov n A v j) = a * a * lam ^ (2 * j) + ip n (krylov n A w j) (krylov n A w j)).
  { intros j. rewrite Hk, ip_add_l, !ip_add_r, !ip_scal_l, !ip_scal_r, He. rewrite (ip_comm n e (krylov n A w j)). destruct (Hw j) as [-> _].
    replace (2 * j)%nat with (j + j)%nat by lia. rewrite pow_add. ring. }
  assert (Hlp : forall j, 0 < lam ^ j) by (intros j; apply pow_lt; lra).
  assert (Hnz : forall j, ~ vzero n (krylov n A v j)).
  { intros j Z. apply ip_zero in Z. rewrite Hsq in Z. pose proof (ip_nonneg n (krylov n A w j)). specialize (Hlp (2 * j)%nat). assert (0 < a * a) by (destruct (Rdichotomy a 0 Ha); nra). nra. }
  destruct (power_value draw matrix d n A v (Z.of_nat (S k)) tol HA Hd ltac:(lia) ltac:(intros; apply Hnz)) as (k' & out & Hk1 & Hk2 & E & _ & _ & Hst).
  assert (Ek : (k' - 1)%nat = k). { destruct Hst as [Hst|Hst]; [lia|]. pose proof (Rabs_pos (estimate n A v k' - estimate n A v (k' - 1))). lra. }
  rewrite Ek in E. exists out. eexists. split; [exact E|].
  unfold rayleigh. set (q := krylov n A w k) in *. set (y := krylov n A v k) in *.
  assert (Ey : ip n y (mv n A y) = a * a * lam ^ (2 * k) * lam + ip n q (mv n A q)).
  { unfold y. rewrite (Hk k). fold q. rewrite (mv_add n A (fun i => a * lam ^ k * e i) q), ip_add_l, !ip_add_r. 
    assert (Es : veq n (mv n A (fun i => a * lam ^ k * e i)) (fun i => a * lam ^ k * lam * e i)) by (intros i Hi; rewrite (mv_scal n A (a * lam ^ k) e i Hi), (Hle i Hi); ring). rewrite Es.
    rewrite !ip_scal_l, !ip_scal_r, He. rewrite (ip_sym n A e q HS), Hle, ip_scal_l, (ip_comm n e q). unfold q at 1 2. destruct (Hw k) as [-> _].
    replace (2 * k)%nat with (k + k)%nat by lia. rewrite pow_add. ring. }
  specialize (Hsq k). fold y q in Hsq. rewrite Ey, Hsq. destruct (Hw k) as [Hq0 Hq]. fold q in Hq0, Hq. set (nq := ip n q q) in *. set (W := ip n w w) in *.
  assert (Hnq : 0 <= nq) by apply ip_nonneg. assert (HW : 0 <= W) by apply ip_nonneg.
  assert (Hb : Rabs (ip n q (mv n A q)) <= mu * nq).
  { apply Rabs_le. pose proof (ip_cs n q (mv n A q)) as C. fold nq in C. specialize (Hcon q Hq0). fold nq in Hcon.
    assert (C2 : ip n q (mv n A q) * ip n q (mv n A q) <= (mu * nq) * (mu * nq)) by nra. assert (0 <= mu * nq) by nra. split; nra. }
  set (B := ip n q (mv n A q)) in *. set (l2 := lam ^ (2 * k)) in *. assert (Hl2 : 0 < l2) by apply Hlp. assert (Haa : 0 < a * a) by (destruct (Rdichotomy a 0 Ha); nra).
  set (D := a * a * l2 + nq). assert (HD : 0 < D) by (unfold D; nra).
  replace ((a * a * l2 * lam + B) / D - lam) with ((B - lam * nq) / D) by (unfold D; field; unfold D in HD; lra).
  unfold Rdiv at 1. rewrite Rabs_mult, (Rabs_right (/ D)) by (apply Rle_ge; left; now apply Rinv_0_lt_compat).
  assert (Hbn : Rabs (B - lam * nq) <= 2 * lam * nq).
  { apply Rabs_le. assert (B1 : - (mu * nq) <= B <= mu * nq) by (split; [pose proof (Rle_abs (- B)); rewrite Rabs_Ropp in *; lra|pose proof (Rle_abs B); lra]). assert (mu * nq <= lam * nq) by nra. lra. }
  unfold Rdiv. rewrite Rpow_mult_distr, pow_inv. fold l2. set (m2 := mu ^ (2 * k)) in *.
  apply Rle_trans with (2 * lam * (m2 * W) * / (a * a * l2)).
  - apply Rmult_le_compat; [apply Rabs_pos|left; now apply Rinv_0_lt_compat|eapply Rle_trans; [exact Hbn|]; apply Rmult_le_compat_l; [lra|exact Hq]|].
    apply Rinv_le_contravar; [nra|]. unfold D. lra.
  - right. field. split; lra.
Qed.

(*@ C53_eigenvector : started at an eigenvector with non-zero eigenvalue lam, of any square matrix, the call returns lam. *)
Lemma power_eigen : forall `{P : Platform} (draw : nat -> F) (matrix : tensor) (d : fdt) (n : nat) (A : rmat) (v : rvec) (N : Z) (tol lam : R),
  is_mat matrix d n A -> (forall i, draw i = Fin (v i)) -> (1 <= N)%Z -> ~ vzero n v -> lam <> 0 -> veq n (mv n A v) (fun i => lam * v i) ->
  exists out, power_iteration draw matrix N (Fin tol) = Ok (out, Fin lam) /\ exists c, is_vec out d n (fun i => c * v i) /\ Rabs c = / vnorm n v.
Proof.
  intros P draw matrix d n A v N tol lam HA Hd HN Hv Hl He.
  assert (Hk : forall j, veq n (krylov n A v j) (fun i => lam ^ j * v i)).
  { induction j as [|j IH]; [intros i _; cbn; ring|]. rewrite krylov_S, IH, (mv_scal n A (lam ^ j) v). intros i Hi. rewrite (He i Hi). cbn [pow]. ring. }
  assert (Hlj : forall j, lam ^ j <> 0) by (intros j; now apply pow_nonzero).
  assert (Hnz : forall j, ~ vzero n (krylov n A v j)).
  { intros j Z. apply Hv. intros i Hi. specialize (Z i Hi). rewrite (Hk j i Hi) in Z. apply Rmult_integral in Z as [Z|Z]; [now apply Hlj in Z|exact Z]. }
  destruct (power_value draw matrix d n A v N tol HA Hd HN ltac:(intros; apply Hnz)) as (k & out & Hk1 & Hk2 & E & Ho & _).
  exists out. rewrite E. pose proof (pos_ip n v Hv) as Pv. pose proof (pos_vnorm n v Hv) as Pn. split.
  - do 3 f_equal. set (j := (k - 1)%nat). unfold rayleigh. assert (Es : veq n (mv n A (fun i => lam ^ j * v i)) (fun i => lam ^ j * lam * v i)) by (intros i Hi; rewrite (mv_scal n A (lam ^ j) v i Hi), (He i Hi); ring). rewrite (Hk j), Es. rewrite !ip_scal_l, !ip_scal_r. field. split; [lra|apply Hlj].
  - exists (lam ^ k / (Rabs (lam ^ k) * vnorm n v)). split.
    + revert Ho. apply vec_ext. intros i Hi. rewrite (Hk k i Hi), (Hk k), vnorm_scal. unfold Rdiv. ring.
    + specialize (Hlj k). apply Rabs_pos_lt in Hlj. unfold Rdiv. rewrite Rabs_mult, Rabs_inv, Rabs_mult, Rabs_Rabsolu, (Rabs_right (vnorm n v)) by lra. field. split; lra.
Qed.

(*@ C53_kernel : if the start vector v <> 0 is mapped to 0 (e.g. the zero matrix) and the tolerance is non-negative, the value 0 is returned after one step, and the returned vector is NaN in every entry. *)
Lemma power_kernel : forall `{P : Platform} (draw : nat -> F) (matrix : tensor) (d : fdt) (n : nat) (A : rmat) (v : rvec) (N : Z) (tol : R),
  is_mat matrix d n A -> (forall i, draw i = Fin (v i)) -> (1 <= N)%Z -> ~ vzero n v -> vzero n (mv n A v) -> 0 <= tol ->
  exists out, power_iteration draw matrix N (Fin tol) = Ok (out, Fin 0) /\ dt out = d /\ shp out = [n] /\ forall i, (i < n)%nat -> tget out [i] = NaN.
Proof.
  intros P draw matrix d n A v N tol HA Hd HN Hv HZ Ht. pose proof HA as (Dm & Sm & Wm & _). unfold power_iteration. nx. rewrite Sm, Nat.eqb_refl, Dm.
  set (st0 := (0%Z, tab d [n] (fun o => @fcast (XROps P) d (draw (hd 0%nat o))), @fcast (XROps P) d fzero, true) : @pi_state (XROps P)).
  assert (H0 : at_step n A d tol v 0 st0).
  { unfold at_step, st0. split; [reflexivity|]. split; [exists 1; split; [lra|]; apply tabv_vec; intros i Hi; cbn; rewrite Hd; f_equal; ring|]. split; [cbn; now rewrite Q2R_0|reflexivity]. }
  destruct (loop_ok n A matrix d tol HA v 1 ltac:(lia) ltac:(intros k Hk; replace k with 0%nat by lia; exact Hv) 1 0 st0 H0) as (k & st & _ & G2 & G3 & G4 & G5 & G6); [lia|lia|].
  assert (Er : estimate n A v 1 = 0). { cbn. unfold rayleigh. rewrite (ip_proper n v v ltac:(reflexivity) _ _ HZ). unfold ip at 1. rewrite (Sig_ext n _ (fun _ => 0)), Sig_zero by (intros; ring). unfold Rdiv. ring. }
  destruct (step_ok n A matrix d tol HA v 0 st0 H0 Hv) as (st1 & E1 & H1).
  assert (EL : @while_loop _ (Z.to_nat N) (@pi_cond (XROps P) N) (@pi_body (XROps P) matrix (Fin tol)) st0 = Ok st1).
  { destruct (Z.to_nat N) as [|f] eqn:Ef; [lia|]. assert (C0 : @pi_cond (XROps P) N st0 = true) by (cbn; destruct N; try lia; reflexivity). cbn [while_loop]. rewrite C0. nx. rewrite E1. cbn [rbind].
    assert (C1 : @pi_cond (XROps P) N st1 = false). { destruct st1 as [[[i w] s] run]. destruct H1 as (_ & _ & _ & ->). rewrite Er. unfold pi_cond. change (estimate n A v 0) with 0. destruct (Rlt_dec tol (Rabs (0 - 0))) as [Hl|]; [|apply andb_false_r]. exfalso. rewrite Rminus_0_r, Rabs_R0 in Hl. lra. }
    destruct f; cbn [while_loop]; rewrite C1; reflexivity. }
  nx. fold st0. rewrite EL. destruct st1 as [[[i w] s] run]. cbn [rbind]. destruct H1 as (_ & (c & Hc & Hw) & -> & _). rewrite Er.
  assert (Hw0 : is_vec w d n (fun _ => 0)). { revert Hw. apply vec_ext. intros j Hj. cbn. rewrite (HZ j Hj). ring. }
  assert (En : @norm (XROps P) w = Fin 0). { rewrite (vec_norm w d n _ Hw0). f_equal. apply vnorm_zero. intros j _. reflexivity. }
  nx. rewrite En. destruct (bin_vs (@fdiv (XROps P)) w d d (Fin 0) n _ Hw0) as (r & Er' & Dr & Sr & Wr & Hr). nx. rewrite Er'. cbn [rbind]. rewrite promote_same in Dr. exists r. split; [reflexivity|]. split; [exact Dr|]. split; [exact Sr|]. intros j Hj. rewrite (Hr j Hj). cbn [fdiv XROps]. now rewrite xdiv_zero, rsgn_0.
Qed.

(** ** Example: the matrix [[2,1],[1,2]], start vector (1,0): estimates 2, 14/5, ... *)
Definition ex_A : rmat := fun i j => if Nat.eqb i j then 2 else 1.
Definition ex_matrix : gt XR := mkT F32 [2%nat; 2%nat] [Fin 2; Fin 1; Fin 1; Fin 2].
Lemma ex_is : is_mat ex_matrix F32 2 ex_A.
Proof. repeat split. intros [|[|i]] [|[|j]] Hi Hj; try lia; reflexivity. Qed.
Lemma ex_sym : msym 2 ex_A.
Proof. intros i j _ _. unfold ex_A. now rewrite Nat.eqb_sym. Qed.
Lemma Sig2 f : Sig 2 f = f 0%nat + f 1%nat.
Proof. rewrite !Sig_S. unfold Sig. cbn [seq map]. rewrite rsum_nil. ring. Qed.
Lemma ex_psd : mpsd 2 ex_A.
Proof. intros v. unfold ip, mv. rewrite !Sig2. unfold ex_A. cbn [Nat.eqb]. set (a := v 0%nat). set (b := v 1%nat). nra. Qed.
(*@ex C53_example *)
Lemma power_example : forall `{P : Platform}, exists out s, power_iteration (fun i => if Nat.eqb i 0 then Fin 1 else Fin 0) ex_matrix 100 (Fin (1 / 1000000)) = Ok (out, Fin s) /\ 2 <= s <= 3.
Proof.
  intros P. destruct (power_bounds (fun i => if Nat.eqb i 0 then Fin 1 else Fin 0) ex_matrix F32 2 ex_A (fun i => if Nat.eqb i 0 then 1 else 0) 100 (1 / 1000000) ex_is) as (out & s & E & _ & H2 & H3).
  - intros i. now destruct (Nat.eqb i 0).
  - lia.
  - apply ex_sym.
  - apply ex_psd.
  - intros Z. specialize (Z 0%nat ltac:(lia)). unfold mv in Z. rewrite Sig2 in Z. unfold ex_A in Z. cbn in Z. lra.
  - exists out, s. split; [exact E|]. split.
    + revert H2. unfold ip, mv. rewrite !Sig2. unfold ex_A. cbn [Nat.eqb]. intros H. eapply Rle_trans; [|exact H]. right. field.
    + apply H3. intros w. unfold ip, mv. rewrite !Sig2. unfold ex_A. cbn [Nat.eqb]. generalize (w 0%nat), (w 1%nat). intros a b. pose proof (Rle_0_sqr (a - b)) as Hs. unfold Rsqr in Hs. lra.
Qed.
(*@ex C53_converges_example *)
Lemma power_converges_example : forall `{P : Platform} (k : nat), exists out s, power_iteration (fun i => if Nat.eqb i 0 then Fin 1 else Fin 0) ex_matrix (Z.of_nat (S k)) (Fin (-1)) = Ok (out, Fin s) /\ Rabs (s - 3) <= 6 * (1 / 3) ^ (2 * k).
Proof.
  intros P k. set (r := / sqrt 2). assert (Hr : r * r = / 2). { unfold r. rewrite <- Rinv_mult, sqrt_sqrt by lra. reflexivity. }
  destruct (power_converges (fun i => if Nat.eqb i 0 then Fin 1 else Fin 0) ex_matrix F32 2 ex_A (fun _ => r) (fun i => if Nat.eqb i 0 then / 2 else - / 2) r 3 1 (-1) k ex_is ex_sym) as (out & s & E & H).
  - unfold ip. rewrite Sig2. lra.
  - intros i Hi. unfold mv. rewrite Sig2. destruct i as [|[|i]]; [| |lia]; unfold ex_A; cbn [Nat.eqb]; ring.
  - lra.
  - intros x Hx. assert (Hx' : x 0%nat + x 1%nat = 0). { unfold ip in Hx. rewrite Sig2 in Hx. assert (r <> 0) by nra. apply Rmult_eq_reg_r with (r := r); lra. } unfold ip, mv. rewrite !Sig2. unfold ex_A. cbn [Nat.eqb]. replace (x 1%nat) with (- x 0%nat) by lra. right. ring.
  - nra.
  - unfold ip. rewrite Sig2. cbn. lra.
  - intros i. rewrite Hr. destruct (Nat.eqb i 0); f_equal; lra.
  - lra.
  - exists out, s. split; [exact E|]. eapply Rle_trans; [exact H|]. right. rewrite Hr. unfold ip. rewrite Sig2. cbn [Nat.eqb]. field.
Qed.
