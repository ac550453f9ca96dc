(** matrix_inverse_pth_root (C54). *)
From Verif Require Export P_power.
From Coq Require Import List Psatz Reals Qreals Lia.
Import ListNotations.
Open Scope R_scope.
(*@header
From Coq Require Import List.
Import ListNotations.
Open Scope R_scope.
*)

(** ** Specification *)
(** A + r I *)
Definition damped (A : rmat) (r : R) : rmat := madd A (mscal r idm).
(** The ridge: ridge_epsilon * max(largest-eigenvalue estimate, 1e-16). *)
Definition ridge_of (eps s : R) : R := eps * Rmax s (1 / 10000000000000000).
(** How far H is from an inverse p-th root of B: the largest entry of |H^p B - I|. *)
Definition is_residual (n : nat) (p : nat) (H B : rmat) (r : R) : Prop := is_maxdiff n (mm n (mpow n H p) B) idm r.

(** The coupled Newton iteration (Higham, eq. 7.18) on n x n matrices with parameter p, where the
    power q is used in place of p: P_k = (1 + 1/p) I - M_k / p, M_(k+1) = P_k^q M_k, H_(k+1) = H_k P_k. *)
Definition al (p : Z) : R := -1 / IZR p.
Definition stepP (p : Z) (M : rmat) : rmat := madd (mscal (1 - al p) idm) (mscal (al p) M).
Definition stepM (n : nat) (p : Z) (q : nat) (M : rmat) : rmat := mm n (mpow n (stepP p M) q) M.
Definition stepH (n : nat) (p : Z) (M H : rmat) : rmat := mm n H (stepP p M).
Fixpoint iterM (n : nat) (p : Z) (q : nat) (M : rmat) (k : nat) : rmat := match k with O => M | S k => stepM n p q (iterM n p q M k) end.
Fixpoint iterH (n : nat) (p : Z) (q : nat) (M H : rmat) (k : nat) : rmat := match k with O => H | S k => stepH n p (iterM n p q M k) (iterH n p q M H k) end.
(** Its start: M_0 = z B and H_0 = z^(1/p) I with z = (1+p) / (2 ||B||). *)
Definition zof (n : nat) (p : Z) (B : rmat) : R := (1 + IZR p) / (2 * fro n B).
Definition startM (n : nat) (p : Z) (B : rmat) : rmat := fun i j => B i j * zof n p B.
Definition startH (n : nat) (p : Z) (B : rmat) : rmat := fun i j => idm i j * Rpower (zof n p B) (1 / IZR p).

Lemma maxdiff_unique n A B C e e' : meq n A C -> is_maxdiff n A B e -> is_maxdiff n C B e' -> e = e'.
Proof.
  intros E [H1 (i & j & Hi & Hj & H2)] [H3 (i' & j' & Hi' & Hj' & H4)]. apply Rle_antisym.
  - rewrite <- H2, E by assumption. now apply H3.
  - rewrite <- H4, <- E by assumption. now apply H1.
Qed.
Lemma maxdiff_ext n A B C e : meq n A C -> is_maxdiff n A B e -> is_maxdiff n C B e.
Proof.
  intros E [H1 (i & j & Hi & Hj & H2)]. split.
  - intros a b Ha Hb. rewrite <- E by assumption. now apply H1.
  - exists i, j. rewrite <- E by assumption. auto.
Qed.
Lemma maxdiff_nonneg n A B e : is_maxdiff n A B e -> 0 <= e.
Proof. intros [_ (i & j & _ & _ & <-)]. apply Rabs_pos. Qed.

(** ** Rounding log2 p *)
Lemma rround_near k x : IZR k - / 2 < x < IZR k + / 2 -> rround x = k.
Proof.
  intros H. unfold rround. assert (E : Int_part (x + / 2) = k).
  { unfold Int_part. rewrite <- (tech_up (x + / 2) (k + 1)); [lia| |]; rewrite plus_IZR; lra. }
  rewrite E. destruct (Req_EM_T (IZR k) (x + / 2)); [lra|reflexivity].
Qed.
Lemma xtoZ_IZR k : xtoZ (Fin (IZR k)) = k.
Proof. cbn. destruct (Rlt_dec (IZR k) 0); [rewrite <- opp_IZR, Int_part_IZR; lia|apply Int_part_IZR]. Qed.
Lemma ln2_pos : 0 < ln 2. Proof. rewrite <- ln_1. apply ln_increasing; lra. Qed.

Section Pow.
  Context `{P : Platform}.
  Notation xr := (XROps P).
  Definition branch (p : Z) : Z := @ftoZ xr (@fround xr (@fdiv xr (@defdt xr) (@flog xr (@defdt xr) (@fcast xr (@defdt xr) (@fofZ xr p))) (@flog xr (@defdt xr) (@fcast xr (@defdt xr) (@fofZ xr 2))))).
  Lemma branch_near p k : (0 < p)%Z -> IZR k - / 2 < ln (IZR p) / ln 2 < IZR k + / 2 -> branch p = k.
  Proof.
    intros Hp H. unfold branch, fofZ. cbn [ftoZ fround fdiv flog fcast XROps flit]. rewrite !Q2R_Z.
    assert (0 < IZR p) by (apply IZR_lt; lia). rewrite !xlog_fin by lra. rewrite xdiv_fin by (pose proof ln2_pos; lra). cbn [xround]. rewrite (rround_near k) by exact H. apply xtoZ_IZR.
  Qed.
  Lemma branch_pow (k : nat) : branch (2 ^ Z.of_nat k) = Z.of_nat k.
  Proof.
    apply branch_near; [apply Z.pow_pos_nonneg; lia|]. rewrite <- pow_IZR. assert (E : ln (2 ^ k) = INR k * ln 2).
    { rewrite ln_pow by lra. reflexivity. } rewrite E. replace (INR k * ln 2 / ln 2) with (INR k) by (pose proof ln2_pos; field; lra). rewrite INR_IZR_INZ. lra.
  Qed.
  Definition pow_of (b : Z) : nat := if (b <=? 0)%Z then 1%nat else if (b =? 1)%Z then 2%nat else if (b =? 2)%Z then 4%nat else 8%nat.
  Lemma mat_power_val m D n X p : is_mat m D n X -> exists r, @mat_power xr m p = Ok r /\ is_mat r D n (mpow n X (pow_of (branch p))).
  Proof.
    intros H. unfold mat_power. fold (branch p). unfold pow_of.
    assert (H2 : exists r, @mat_pow_2 xr m = Ok r /\ is_mat r D n (mpow n X 2)).
    { destruct (matmul_val m m D D n X X H H) as (r & E & Hr). exists r. split; [exact E|]. rewrite promote_same in Hr. revert Hr. apply mat_ext, mpow_2. }
    assert (H4 : exists r, @mat_pow_4 xr m = Ok r /\ is_mat r D n (mpow n X 4)).
    { destruct H2 as (r & E & Hr). unfold mat_pow_4. rewrite E. cbn [rbind]. destruct (matmul_val r r D D n _ _ Hr Hr) as (r' & E' & Hr'). exists r'. split; [exact E'|]. rewrite promote_same in Hr'. revert Hr'. apply mat_ext, (mpow_double n X 2). }
    assert (H8 : exists r, @mat_pow_8 xr m = Ok r /\ is_mat r D n (mpow n X 8)).
    { destruct H4 as (r & E & Hr). unfold mat_pow_8. rewrite E. cbn [rbind]. destruct (matmul_val r r D D n _ _ Hr Hr) as (r' & E' & Hr'). exists r'. split; [exact E'|]. rewrite promote_same in Hr'. revert Hr'. apply mat_ext, (mpow_double n X 4). }
    destruct (branch p <=? 0)%Z; [exists m; split; [reflexivity|]; revert H; apply mat_ext; symmetry; apply mpow_1|].
    destruct (branch p =? 1)%Z; [exact H2|]. destruct (branch p =? 2)%Z; [exact H4|exact H8].
  Qed.
End Pow.

(** ** The loop *)
Section Loop.
  Context `{P : Platform}.
  Notation xr := (XROps P).
  Variables (n : nat) (D : fdt) (p : Z) (tol : R) (Bm : rmat) (N : Z).
  Hypothesis Hn : (0 < n)%nat.
  Hypothesis HD : promote D F32 = D /\ promote F32 D = D.
  Definition root_at (q : nat) (M0 H0 : rmat) (k : nat) (st : @root_state xr) : Prop :=
    let '(i, m, h, oh, e, run) := st in
    i = Z.of_nat k /\ is_mat m D n (iterM n p q M0 k) /\ is_mat h D n (iterH n p q M0 H0 k) /\ is_mat oh D n (iterH n p q M0 H0 (k - 1)) /\
    exists E, e = Fin E /\ is_maxdiff n (iterM n p q M0 k) idm E /\
    match k with O => run = true | S k' => exists E', is_maxdiff n (iterM n p q M0 k') idm E' /\ run = (if Rlt_dec E (E' * (12 / 10)) then true else false) end.
  Lemma root_step M0 H0 k st : root_at (pow_of (branch p)) M0 H0 k st ->
    exists st', @root_body xr D (Fin (al p)) (@eye xr n) p st = Ok st' /\ root_at (pow_of (branch p)) M0 H0 (S k) st'.
  Proof.
    destruct st as [[[[[i m] h] oh] e] run]. intros (-> & Hm & Hh & _ & E & -> & HE & _). unfold root_body. destruct HD as [HD1 HD2].
    assert (E1 : @fsub xr F32 (@fcast xr F32 fone) (Fin (al p)) = Fin (1 - al p)) by (cbn; now rewrite Q2R_1). nx. rewrite E1.
    destruct (bin_sm (@fmul xr) (@eye xr n) F32 F32 (1 - al p) n idm Rmult (eye_val n)) as (ai & Eai & Hai); [reflexivity|]. nx. rewrite Eai. cbn [rbind].
    destruct (bin_sm (@fmul xr) m F32 D (al p) n _ Rmult Hm) as (am & Eam & Ham); [reflexivity|]. nx. rewrite Eam. cbn [rbind]. rewrite HD2 in Ham. cbn [promote] in Hai.
    destruct (bin_mm (@fadd xr) ai am F32 D n _ _ Rplus Hai Ham) as (mi & Emi & Hmi); [reflexivity|]. nx. rewrite Emi. cbn [rbind]. rewrite HD2 in Hmi.
    change (is_mat mi D n (stepP p (iterM n p (pow_of (branch p)) M0 k))) in Hmi.
    destruct (mat_power_val mi D n _ p Hmi) as (pw & Epw & Hpw). nx. rewrite Epw. cbn [rbind].
    destruct (matmul_val pw m D D n _ _ Hpw Hm) as (nm & Enm & Hnm). nx. rewrite Enm. cbn [rbind].
    destruct (matmul_val h mi D D n _ _ Hh Hmi) as (nh & Enh & Hnh). nx. rewrite Enh. cbn [rbind]. rewrite promote_same in Hnm, Hnh.
    destruct (max_abs_val nm D n _ Hnm Hn) as (e' & Ee & He'). nx. rewrite Ee. cbn [rbind]. eexists. split; [reflexivity|].
    unfold root_at. split; [lia|]. split; [exact Hnm|]. split; [exact Hnh|]. cbn [Nat.sub]. rewrite Nat.sub_0_r. split; [exact Hh|]. exists e'. split; [reflexivity|]. split; [exact He'|]. exists E. split; [exact HE|].
    cbn [fmul fcast flit XROps xmul flt xlt]. replace (Q2R (12 # 10)) with (12 / 10) by (unfold Q2R; cbn; lra). reflexivity.
  Qed.
  (** The loop was not ready to stop before step [k]. *)
  Definition going (q : nat) (M0 : rmat) (k : nat) : Prop := forall j, (j < k)%nat -> exists E, is_maxdiff n (iterM n p q M0 j) idm E /\ tol < E /\
    match j with O => True | S j' => exists E', is_maxdiff n (iterM n p q M0 j') idm E' /\ E < E' * (12 / 10) end.
  (** The loop leaves after [k] steps for one of the three reasons, and not earlier. *)
  Lemma root_loop M0 H0 st0 : (0 <= N)%Z -> root_at (pow_of (branch p)) M0 H0 0 st0 ->
    exists k st, (k <= Z.to_nat N)%nat /\ exits (@root_cond xr D N (Fin tol)) (@root_body xr D (Fin (al p)) (@eye xr n) p) st0 k st /\
    @while_loop _ (Z.to_nat N) (@root_cond xr D N (Fin tol)) (@root_body xr D (Fin (al p)) (@eye xr n) p) st0 = Ok st /\ root_at (pow_of (branch p)) M0 H0 k st /\
    @root_cond xr D N (Fin tol) st = false /\ going (pow_of (branch p)) M0 k.
  Proof.
    intros HN H0s. set (I := fun st : @root_state xr => exists k, root_at (pow_of (branch p)) M0 H0 k st /\ going (pow_of (branch p)) M0 k).
    destruct (loop_exits (@root_cond xr D N (Fin tol)) (@root_body xr D (Fin (al p)) (@eye xr n) p) (fun st => fst (fst (fst (fst (fst st))))) N I) with (fuel := Z.to_nat N) (s := st0) as (k & st & G1 & G2 & G3 & (k' & G4 & Gg) & G5).
    - intros [[[[[i m] h] oh] e] run] H. cbn in H. apply andb_prop in H as [H _]. cbn. now apply Z.ltb_lt.
    - intros st (k & Hk & Hg) Hc. destruct (root_step M0 H0 k st Hk) as (st' & E & H'). exists st'. split; [exact E|]. split.
      { exists (S k). split; [exact H'|]. intros j Hj. destruct (Nat.eq_dec j k) as [->|Hne]; [|apply Hg; lia]. destruct st as [[[[[i m] h] oh] e] run]. destruct Hk as (_ & _ & _ & _ & E0 & -> & HE0 & Hrun).
        unfold root_cond in Hc. apply andb_prop in Hc as [_ Hc]. apply andb_prop in Hc as [Hc1 Hc2]. cbn [flt fcast XROps] in Hc1. apply xlt_fin in Hc1. exists E0. split; [exact HE0|]. split; [exact Hc1|]. destruct k as [|k]; [constructor|]. destruct Hrun as (E' & HE' & Hr). exists E'. split; [exact HE'|]. subst run. destruct (Rlt_dec E0 (E' * (12 / 10))); [assumption|discriminate]. }
      destruct st as [[[[[i m] h] oh] e] run], st' as [[[[[i' m'] h'] oh'] e'] run']. destruct Hk as (-> & _), H' as (-> & _). cbn. lia.
    - exists 0%nat. split; [exact H0s|]. intros j Hj. lia.
    - destruct st0 as [[[[[i m] h] oh] e] run]. destruct H0s as (-> & _). cbn. lia.
    - exists k, st. assert (Ek : k' = k). { destruct st0 as [[[[[i m] h] oh] e] run], st as [[[[[i' m'] h'] oh'] e'] run']. destruct H0s as (-> & _), G4 as (-> & _). cbn in G5. lia. } subst k'.
      repeat split; auto. clear - G1. induction G1; auto.
  Qed.
End Loop.

(** The invariant of the coupled iteration: M = H^p B, and everything commutes with B. *)
Lemma coupled n p q Bm M0 H0 : (0 < p)%Z -> Z.of_nat q = p -> meq n M0 (mm n (mpow n H0 q) Bm) -> comm n Bm H0 ->
  forall k, meq n (iterM n p q M0 k) (mm n (mpow n (iterH n p q M0 H0 k) q) Bm) /\ comm n Bm (iterH n p q M0 H0 k).
Proof.
  intros Hp Hq HM Hc. induction k as [|k [IH1 IH2]]; [now split|]. cbn [iterM iterH].
  set (M := iterM n p q M0 k) in *. set (H := iterH n p q M0 H0 k) in *. unfold stepM, stepH. set (X := stepP p M).
  assert (CM : comm n H M). { apply (comm_eq n H (mm n (mpow n H q) Bm) M); [now symmetry|]. apply comm_mm; [apply comm_pow, comm_refl|now apply comm_sym]. }
  assert (CBM : comm n Bm M). { apply (comm_eq n Bm (mm n (mpow n H q) Bm) M); [now symmetry|]. apply comm_mm; [now apply comm_pow|apply comm_refl]. }
  assert (CX : comm n H X) by (apply comm_add; apply comm_scal; [apply comm_id|exact CM]).
  assert (CBX : comm n Bm X) by (apply comm_add; apply comm_scal; [apply comm_id|exact CBM]).
  split; [|now apply comm_mm]. rewrite mpow_mm by exact CX. rewrite IH1, !mm_assoc. apply mm_proper; [|reflexivity].
  apply (comm_pow n (mpow n X q) H q), comm_sym, comm_pow. exact CX.
Qed.

(** ** What power_iteration contributes *)
Lemma max_ev_val `{P : Platform} (draw : nat -> XR) (matrix : gt XR) d n A v tol : is_mat matrix d n A -> (forall i, draw i = Fin (v i)) -> msym n A -> ~ vzero n v -> 0 <= tol ->
  exists out s, @power_iteration (XROps P) draw matrix 100 (Fin tol) = Ok (out, Fin s) /\ (mpsd n A -> 0 <= s).
Proof.
  intros HA Hd HS Hv Ht. destruct (Req_dec (ip n (mv n A v) (mv n A v)) 0) as [E|E].
  - apply ip_zero in E. destruct (power_kernel draw matrix d n A v 100 tol HA Hd ltac:(lia) Hv E Ht) as (out & Eo & _). exists out, 0. split; [exact Eo|intros; lra].
  - assert (Hz : ~ vzero n (mv n A v)) by (intros Z; now apply E, ip_zero).
    destruct (power_value draw matrix d n A v 100 tol HA Hd ltac:(lia) ltac:(intros; now apply kry_nonzero)) as (k & out & _ & _ & Eo & _). eexists out, _. split; [exact Eo|].
    intros Q. apply ray_nonneg; [exact Q|now apply kry_nonzero].
Qed.
Lemma psd_diag n A i : mpsd n A -> (i < n)%nat -> 0 <= A i i.
Proof.
  intros Q Hi. specialize (Q (fun j => if Nat.eqb i j then 1 else 0)). unfold ip in Q. rewrite (Sig_delta n (mv n A (fun j => if Nat.eqb i j then 1 else 0)) i Hi) in Q. unfold mv in Q.
  rewrite (Sig_ext n _ (fun j => (if Nat.eqb i j then 1 else 0) * A i j)) in Q by (intros; ring). now rewrite (Sig_delta n (fun j => A i j) i Hi) in Q.
Qed.
Lemma fro_pos n A i j : (i < n)%nat -> (j < n)%nat -> A i j <> 0 -> 0 < fro n A.
Proof.
  intros Hi Hj H. apply sqrt_lt_R0. assert (Hs : forall k f m, (forall i, (i < k)%nat -> 0 <= f i) -> (m < k)%nat -> 0 < f m -> 0 < Sig k f).
  { induction k as [|k IH]; intros f m Hf Hm Hp; [lia|]. rewrite Sig_S. destruct (Nat.eq_dec m k) as [->|Hne].
    - assert (0 <= Sig k f) by (apply Sig_nonneg; intros; apply Hf; lia). lra.
    - assert (0 < Sig k f) by (apply (IH f m); [intros; apply Hf; lia|lia|exact Hp]). specialize (Hf k ltac:(lia)). lra. }
  apply (Hs n _ i); [|exact Hi|].
  - intros a _. apply Sig_nonneg. intros; nra.
  - apply (Hs n _ j); [intros; nra|exact Hj|]. destruct (Rdichotomy _ _ H); nra.
Qed.

Section Main.
  Context `{P : Platform}.
  Notation xr := (XROps P).
  (** The whole function on an n x n matrix, n >= 2, in terms of the exact iteration. *)
  Lemma root_general (draw : nat -> XR) (matrix : gt XR) d n A v s (p : Z) (N : Z) (eps tol : R) out :
    is_mat matrix d n A -> (2 <= n)%nat -> (0 < p)%Z -> (0 <= N)%Z -> (forall i, draw i = Fin (v i)) ->
    @power_iteration xr draw matrix 100 (Fin (1 / 1000000)) = Ok (out, Fin s) ->
    let B := damped A (ridge_of eps s) in 0 < fro n B ->
    let q := pow_of (branch p) in let M0 := startM n p B in let H0 := startH n p B in
    exists (k : nat) (h : gt XR) (run : bool) (E : R), @matrix_inverse_pth_root xr draw matrix p N (Fin eps) (Fin tol) = Ok (h, Fin E) /\ (k <= Z.to_nat N)%nat /\
      is_mat h d n (iterH n p q M0 H0 (if run then k else k - 1)) /\ is_maxdiff n (iterM n p q M0 k) idm E /\
      (run = true /\ (E <= tol \/ Z.of_nat k = N) \/ run = false /\ (1 <= k)%nat /\ exists E', is_maxdiff n (iterM n p q M0 (k - 1)) idm E' /\ E' * (12 / 10) <= E) /\ going n p tol q M0 k.
  Proof.
    intros HA Hn Hp HN Hd Eev B HB q M0 H0. set (z := zof n p B). pose proof HA as (Dm & Sm & Wm & _). unfold matrix_inverse_pth_root. nx. rewrite Sm, Dm.
    assert (Etol : @flit xr (1 # 1000000) = Fin (1 / 1000000)) by (cbn; unfold Q2R; cbn; f_equal; lra). nx. rewrite Etol, Eev. cbn [rbind].
    replace (Nat.eqb n 1) with false by (symmetry; apply Nat.eqb_neq; lia).
    assert (Er : @fmul xr d (@fcast xr d (Fin eps)) (@fmax xr (Fin s) (@fcast xr d (@flit xr (1 # 10000000000000000)))) = Fin (ridge_of eps s)).
    { cbn [fmul fcast fmax flit XROps xmax xmul]. unfold ridge_of. reflexivity. }
    nx. rewrite Er. assert (HpR : 0 < IZR p) by (apply IZR_lt; lia).
    assert (Eal : @fcast xr F32 (@fdiv xr F64 (@fneg xr fone) (@fofZ xr p)) = Fin (al p)).
    { unfold fofZ. cbn [fcast fdiv XROps fneg flit xneg fone]. rewrite Q2R_Z, Q2R_1, xdiv_fin by lra. reflexivity. }
    nx. rewrite Eal. set (D := promote d F32). assert (HD : promote D F32 = D /\ promote F32 D = D) by (unfold D; destruct d; split; reflexivity).
    destruct (bin_sm (@fmul xr) (@eye xr n) d F32 (ridge_of eps s) n idm Rmult (eye_val n)) as (ri & Eri & Hri); [reflexivity|]. nx. rewrite Eri. cbn [rbind]. fold D in Hri.
    destruct (bin_mm (@fadd xr) matrix ri d D n _ _ Rplus HA Hri) as (dm & Edm & Hdm); [reflexivity|]. nx. rewrite Edm. cbn [rbind].
    assert (EdD : promote d D = D) by (unfold D; destruct d; reflexivity). rewrite EdD in Hdm. change (is_mat dm D n B) in Hdm.
    assert (En : @norm xr dm = Fin (fro n B)) by (apply (mat_norm dm D n B Hdm)).
    assert (Ez : @fdiv xr D (@fcast xr D (@fofZ xr (1 + p))) (@fmul xr D (@fcast xr D (@fofZ xr 2)) (@norm xr dm)) = Fin z).
    { rewrite En. unfold fofZ. cbn [fdiv fcast fmul XROps flit xmul]. rewrite !Q2R_Z, xdiv_fin by lra. unfold z, zof. now rewrite plus_IZR. }
    nx. rewrite Ez. assert (Hz : 0 < z) by (unfold z, zof; apply Rdiv_lt_0_compat; lra).
    destruct (bin_ms (@fmul xr) dm D D z n B Rmult Hdm) as (m0 & Em0 & Hm0); [reflexivity|]. nx. rewrite Em0. cbn [rbind]. rewrite promote_same in Hm0. change (is_mat m0 D n M0) in Hm0.
    destruct (max_abs_val m0 D n M0 Hm0 ltac:(lia)) as (e0 & Ee0 & He0). nx. rewrite Ee0. cbn [rbind].
    assert (Epw : @fpow xr D (Fin z) (@fcast xr D (@fdiv xr F64 fone (@fofZ xr p))) = Fin (Rpower z (1 / IZR p))).
    { unfold fofZ. cbn [fpow fcast fdiv XROps flit fone]. rewrite Q2R_Z, Q2R_1, xdiv_fin by lra. now rewrite xpow_pos. }
    nx. rewrite Epw. destruct (bin_ms (@fmul xr) (@eye xr n) D F32 (Rpower z (1 / IZR p)) n idm Rmult (eye_val n)) as (h0 & Eh0 & Hh0); [reflexivity|]. nx. rewrite Eh0. cbn [rbind]. destruct HD as [HD1 HD2]. rewrite HD2 in Hh0. change (is_mat h0 D n H0) in Hh0.
    destruct (root_loop n D p tol N ltac:(lia) (conj HD1 HD2) M0 H0 (0%Z, m0, h0, h0, Fin e0, true) HN) as (k & st & G1 & _ & G3 & G4 & G5 & G6).
    { unfold root_at. repeat split; auto; try apply Hm0; try apply Hh0. exists e0. repeat split; try apply He0; auto. }
    nx. rewrite G3. fold q in G4. destruct st as [[[[[i m] h] oh] e] run]. cbn [rbind]. destruct G4 as (-> & Hm & Hh & Hoh & E & -> & HE & Hrun).
    destruct (max_abs_val m D n _ Hm ltac:(lia)) as (e' & Ee' & He'). nx. rewrite Ee'. cbn [rbind].
    assert (Ee : e' = E) by (eapply maxdiff_unique; [reflexivity|exact He'|exact HE]). subst e'.
    set (c := if run then 1 else 0). assert (Ec : @fcast xr D (if run then fone else fzero) = Fin c) by (unfold c; destruct run; cbn; [now rewrite Q2R_1|now rewrite Q2R_0]).
    assert (Ec' : @fsub xr D (@fcast xr D fone) (Fin c) = Fin (1 - c)) by (cbn; now rewrite Q2R_1). nx. rewrite Ec, Ec'.
    destruct (bin_sm (@fmul xr) h D D c n _ Rmult Hh) as (a & Ea & Ha); [reflexivity|]. nx. rewrite Ea. cbn [rbind].
    destruct (bin_sm (@fmul xr) oh D D (1 - c) n _ Rmult Hoh) as (b & Eb & Hb); [reflexivity|]. nx. rewrite Eb. cbn [rbind]. rewrite promote_same in Ha, Hb.
    destruct (bin_mm (@fadd xr) a b D D n _ _ Rplus Ha Hb) as (r & Err & Hr); [reflexivity|]. nx. rewrite Err. cbn [rbind]. rewrite promote_same in Hr.
    exists k, (@astype xr d r), run, E. split; [reflexivity|]. split; [exact G1|]. split.
    { assert (Hr' : is_mat r D n (iterH n p q M0 H0 (if run then k else (k - 1)%nat))) by (revert Hr; apply mat_ext; intros a' b' _ _; unfold c; destruct run; ring).
      destruct Hr' as (_ & Sr & Wr & Vr). unfold is_mat. split; [reflexivity|]. split; [exact Sr|]. split; [unfold twf, astype; cbn [dat shp]; rewrite map_length; exact Wr|]. intros a' b' Ha' Hb'. unfold astype. cbn [dat]. etransitivity; [apply nth_error_map|]. pose proof (Vr a' b' Ha' Hb') as V. nx. rewrite V. cbn [option_map]. now rewrite conv_x. }
    split; [exact HE|]. split; [|exact G6]. destruct run.
    - left. split; [reflexivity|]. unfold root_cond in G5. cbn [flt fcast XROps] in G5. apply andb_false_iff in G5 as [G5|G5]; [right; apply Z.ltb_ge in G5; lia|]. rewrite andb_true_r in G5. apply xlt_fin_f in G5. now left.
    - right. split; [reflexivity|]. destruct k as [|k]; [discriminate|]. split; [lia|]. cbn [Nat.sub]. rewrite Nat.sub_0_r. destruct Hrun as (E' & HE' & Hr'). exists E'. split; [exact HE'|]. destruct (Rlt_dec E (E' * (12 / 10))); [discriminate|lra].
  Qed.
End Main.

(** H0^p B = z B. *)
Lemma start_ok n p Bm : (0 < p)%Z -> 0 < zof n p Bm ->
  meq n (startM n p Bm) (mm n (mpow n (startH n p Bm) (Z.to_nat p)) Bm) /\ comm n Bm (startH n p Bm).
Proof.
  intros Hp Hz. unfold startM, startH. set (z := zof n p Bm) in *. set (c := Rpower z (1 / IZR p)). assert (E : meq n (fun i j => idm i j * c) (mscal c idm)) by (intros i j _ _; unfold mscal; ring).
  assert (Ec : c ^ Z.to_nat p = z).
  { unfold c. assert (HpR : 0 < IZR p) by (apply IZR_lt; lia). rewrite <- Rpower_pow by apply exp_pos. rewrite Rpower_mult, INR_IZR_INZ, Z2Nat.id by lia. replace (1 / IZR p * IZR p) with 1 by (field; lra). now apply Rpower_1. }
  split.
  - rewrite E, mpow_scal_id, Ec, mm_scal_l, mm_id_l. intros i j _ _. unfold mscal. ring.
  - apply (comm_eq n Bm (mscal c idm)); [now symmetry|]. apply comm_scal, comm_id.
Qed.
Lemma pow_branch `{P : Platform} p : In p [1; 2; 4; 8]%Z -> pow_of (branch p) = Z.to_nat p /\ (0 < p)%Z.
Proof.
  intros [<-|[<-|[<-|[<-|[]]]]]; (split; [|lia]).
  - change 1%Z with (2 ^ Z.of_nat 0)%Z at 1. now rewrite branch_pow.
  - change 2%Z with (2 ^ Z.of_nat 1)%Z at 1. now rewrite branch_pow.
  - change 4%Z with (2 ^ Z.of_nat 2)%Z at 1. now rewrite branch_pow.
  - change 8%Z with (2 ^ Z.of_nat 3)%Z at 1. now rewrite branch_pow.
Qed.
Lemma damped_fro n A r : (0 < n)%nat -> mpsd n A -> 0 < r -> 0 < fro n (damped A r).
Proof.
  intros Hn Q Hr. apply (fro_pos n _ 0 0); [exact Hn|exact Hn|]. pose proof (psd_diag n A 0 Q Hn). unfold damped, madd, mscal, idm. rewrite Nat.eqb_refl. lra.
Qed.
Lemma ridge_pos eps s : 0 < eps -> 0 < ridge_of eps s.
Proof. intros H. unfold ridge_of. apply Rmult_lt_0_compat; [exact H|]. eapply Rlt_le_trans; [|apply Rmax_r]. lra. Qed.

(*@ C54_residual : For p = 1, 2, 4 or 8, every symmetric positive semidefinite n x n matrix A (n >= 2) of finite entries, every start vector v <> 0, positive ridge_epsilon, tolerance and iteration bound: the call returns a matrix H and an error e such that H commutes with the damped matrix B = A + ridge I and the largest entry r of |H^p B - I| is at most e.  Precisely: after k <= num_iters steps of the coupled Newton iteration, either H = H_k, r = e, and (e <= tolerance or k = num_iters); or the iteration was abandoned because the error grew, H = H_(k-1) is the iterate before the last, and e >= 1.2 r (so the reported error is not that of the returned matrix).  No earlier step met a stopping criterion: before step k every error was above the tolerance and grew by less than 20 percent.  The ridge is ridge_epsilon * max(s, 1e-16) where s >= 0 is the value returned by power_iteration. *)
Lemma root_residual : forall `{P : Platform} (draw : nat -> F) (matrix : tensor) (d : fdt) (n : nat) (A : rmat) (v : rvec) (p : Z) (N : Z) (eps tol : R),
  is_mat matrix d n A -> (2 <= n)%nat -> msym n A -> mpsd n A -> (forall i, draw i = Fin (v i)) -> ~ vzero n v -> In p [1; 2; 4; 8]%Z -> (0 <= N)%Z -> 0 < eps ->
  exists (out : tensor) (s : R) (h : tensor) (H : rmat) (e r : R) (k : nat),
  power_iteration draw matrix 100 (Fin (1 / 1000000)) = Ok (out, Fin s) /\ 0 <= s /\
  matrix_inverse_pth_root draw matrix p N (Fin eps) (Fin tol) = Ok (h, Fin e) /\ is_mat h d n H /\
  let B := damped A (ridge_of eps s) in let newton := iterH n p (Z.to_nat p) (startM n p B) (startH n p B) in
  comm n B H /\ is_residual n (Z.to_nat p) H B r /\ r <= e /\ (Z.of_nat k <= N)%Z /\
  (meq n H (newton k) /\ r = e /\ (e <= tol \/ Z.of_nat k = N) \/ (1 <= k)%nat /\ meq n H (newton (k - 1)%nat) /\ r * (12 / 10) <= e) /\
  (forall j, (j < k)%nat -> exists rj, is_residual n (Z.to_nat p) (newton j) B rj /\ tol < rj /\ (j = 0%nat \/ exists r', is_residual n (Z.to_nat p) (newton (j - 1)%nat) B r' /\ rj < r' * (12 / 10))).
Proof.
  intros P draw matrix d n A v p N eps tol HA Hn HS HQ Hd Hv Hp HN Heps. destruct (pow_branch p Hp) as [Hq Hp0].
  destruct (max_ev_val draw matrix d n A v (1 / 1000000) HA Hd HS Hv ltac:(lra)) as (out & s & Es & Hs). specialize (Hs HQ).
  set (B := damped A (ridge_of eps s)). assert (HB : 0 < fro n B) by (apply damped_fro; [lia|exact HQ|now apply ridge_pos]).
  destruct (root_general draw matrix d n A v s p N eps tol out HA Hn Hp0 HN Hd Es HB) as (k & h & run & E & Eh & Hk & Hh & HE & Hcase & Hgo). fold B in Hh, HE, Hcase, Hgo. rewrite Hq in Hh, HE, Hcase, Hgo.
  assert (Hz : 0 < zof n p B). { unfold zof. assert (0 < IZR p) by (apply IZR_lt; lia). apply Rdiv_lt_0_compat; lra. }
  destruct (start_ok n p B Hp0 Hz) as [S1 S2].
  pose proof (coupled n p (Z.to_nat p) B _ _ Hp0 ltac:(lia) S1 S2) as Hinv.
  set (j := if run then k else (k - 1)%nat) in *. destruct (Hinv j) as [I1 I2].
  assert (Hr : exists r, is_maxdiff n (iterM n p (Z.to_nat p) (startM n p B) j) idm r /\ (run = true /\ r = E /\ (E <= tol \/ Z.of_nat k = N) \/ run = false /\ (1 <= k)%nat /\ r * (12 / 10) <= E)).
  { destruct Hcase as [(-> & Hc)|(-> & Hk1 & E' & HE' & Hc)]; [exists E; split; [exact HE|]; left; auto|exists E'; split; [exact HE'|]; right; auto]. }
  destruct Hr as (r & Hr & Hc). exists out, s, h, (iterH n p (Z.to_nat p) (startM n p B) (startH n p B) j), E, r, k.
  split; [exact Es|]. split; [exact Hs|]. split; [exact Eh|]. split; [exact Hh|]. cbv zeta. fold B. split; [exact I2|]. split; [exact (maxdiff_ext n _ _ _ r I1 Hr)|].
  pose proof (maxdiff_nonneg n _ _ _ Hr) as Hr0. split; [destruct Hc as [(_ & -> & _)|(_ & _ & Hc)]; lra|]. split; [lia|].
  split; [|intros a Ha; destruct (Hgo a Ha) as (Ea & HEa & Hta & Hra); exists Ea; split; [exact (maxdiff_ext n _ _ _ Ea (proj1 (Hinv a)) HEa)|]; split; [exact Hta|]; destruct a as [|a]; [now left|right]; destruct Hra as (E' & HE' & Hl); exists E'; cbn [Nat.sub]; rewrite Nat.sub_0_r; split; [exact (maxdiff_ext n _ _ _ E' (proj1 (Hinv a)) HE')|exact Hl]].
  destruct Hc as [(Er & -> & Hc)|(Er & Hk1 & Hc)]; unfold j; rewrite Er; [left|right]; repeat split; auto; reflexivity.
Qed.

(*@ C54_one_by_one : for a 1 x 1 matrix a >= 0 and every p >= 1 the result is exact: h^p (a + ridge) = 1, and the reported error is 0.  (The result has the dtype promoted with float32, unlike the general case.) *)
Lemma root_1x1 : forall `{P : Platform} (draw : nat -> F) (matrix : tensor) (d : fdt) (a v0 : R) (p : Z) (N : Z) (eps tol : R),
  matrix = mkT d [1; 1]%nat [Fin a] -> 0 <= a -> draw 0%nat = Fin v0 -> v0 <> 0 -> (1 <= p)%Z -> 0 < eps ->
  exists (s h : R), 0 <= s /\ matrix_inverse_pth_root draw matrix p N (Fin eps) (Fin tol) = Ok (mkT (promote d F32) [1; 1]%nat [Fin h], Fin 0) /\
  0 < h /\ h ^ Z.to_nat p * (a + ridge_of eps s) = 1.
Proof.
  intros P draw matrix d a v0 p N eps tol -> Ha Hd0 Hv Hp Heps.
  set (A := fun _ _ : nat => a). set (draw' := fun i : nat => if Nat.eqb i 0 then draw 0%nat else Fin 0).
  assert (HA : is_mat (mkT d [1; 1]%nat [Fin a]) d 1 A) by (repeat split; intros [|i] [|j] Hi Hj; try lia; reflexivity).
  assert (Edr : @power_iteration (XROps P) draw (mkT d [1; 1]%nat [Fin a]) 100 (Fin (1 / 1000000)) = power_iteration draw' (mkT d [1; 1]%nat [Fin a]) 100 (Fin (1 / 1000000))) by reflexivity.
  destruct (max_ev_val draw' (mkT d [1; 1]%nat [Fin a]) d 1 A (fun i => if Nat.eqb i 0 then v0 else 0) (1 / 1000000) HA) as (out & s & Es & Hs).
  - intros i. unfold draw'. destruct (Nat.eqb i 0); [exact Hd0|reflexivity].
  - intros i j _ _. reflexivity.
  - intros Z. specialize (Z 0%nat ltac:(lia)). cbn in Z. contradiction.
  - lra.
  - assert (Hs0 : 0 <= s). { apply Hs. intros w. unfold ip, mv. rewrite !Sig_S. unfold Sig, A. cbn [seq map]. rewrite !rsum_nil. nra. }
    exists s, (Rpower (a + ridge_of eps s) (al p)). split; [exact Hs0|]. pose proof (ridge_pos eps s Heps) as Hr. assert (HpR : 0 < IZR p) by (apply IZR_lt; lia).
    split; [|split; [apply exp_pos|]].
    + unfold matrix_inverse_pth_root. cbn [shp dt Nat.eqb].
      assert (Etol : @flit (XROps P) (1 # 1000000) = Fin (1 / 1000000)) by (cbn; unfold Q2R; cbn; f_equal; lra). nx. rewrite Etol, Edr, Es. cbn [rbind].
      assert (Er : @fmul (XROps P) d (@fcast (XROps P) d (Fin eps)) (@fmax (XROps P) (Fin s) (@fcast (XROps P) d (@flit (XROps P) (1 # 10000000000000000)))) = Fin (ridge_of eps s)) by reflexivity.
      nx. rewrite Er. rewrite (@bin_scalar_r (XROps P)) by reflexivity. cbn [rbind]. rewrite (@bin_scalar_r (XROps P)) by reflexivity. cbn [rbind dt shp dat map]. rewrite !conv_x, promote_same.
      assert (Eal : @fcast (XROps P) F32 (@fdiv (XROps P) F64 (@fneg (XROps P) fone) (@fofZ (XROps P) p)) = Fin (al p)).
      { unfold fofZ. cbn [fcast fdiv XROps fneg flit xneg fone]. rewrite Q2R_Z, Q2R_1, xdiv_fin by lra. reflexivity. }
      nx. rewrite Eal. cbn [fadd fpow XROps]. rewrite xadd_fin, xpow_pos by lra. do 3 f_equal. cbn. now rewrite Q2R_0.
    + rewrite <- Rpower_pow by apply exp_pos. rewrite Rpower_mult, INR_IZR_INZ, Z2Nat.id by lia. unfold al. replace (-1 / IZR p * IZR p) with (- (1)) by (field; lra). rewrite Rpower_Ropp, Rpower_1 by lra. field. lra.
Qed.

(** ** p = 3 *)
Lemma ln3 : 3 / 2 < ln 3 / ln 2 < 5 / 2.
Proof.
  pose proof ln2_pos as H2. assert (E9 : ln 9 = 2 * ln 3) by (replace 9 with (3 * 3) by lra; rewrite ln_mult by lra; lra).
  assert (E8 : ln 8 = 3 * ln 2) by (replace 8 with (2 * (2 * 2)) by lra; rewrite !ln_mult by lra; lra).
  assert (E32 : ln 32 = 5 * ln 2) by (replace 32 with (2 * (2 * (2 * (2 * 2)))) by lra; rewrite !ln_mult by lra; lra).
  pose proof (ln_increasing 8 9 ltac:(lra) ltac:(lra)). pose proof (ln_increasing 9 32 ltac:(lra) ltac:(lra)).
  split; apply Rmult_lt_reg_r with (r := ln 2); auto; unfold Rdiv; rewrite ?Rmult_assoc, ?(Rmult_comm (/ ln 2)), ?Rmult_assoc, ?Rinv_r; lra.
Qed.
Lemma branch3 `{P : Platform} : branch 3 = 2%Z.
Proof. apply branch_near; [lia|]. pose proof ln3. lra. Qed.

Section Three.
  Variables (b : R).
  Hypothesis Hb : 0 < b.
  Definition Bsc : rmat := mscal b idm.
  Lemma fro_sc : fro 2 Bsc = b * sqrt 2.
  Proof.
    unfold fro. rewrite !Sig2. unfold Bsc, mscal, idm. cbn [Nat.eqb]. replace (b * 1 * (b * 1) + b * 0 * (b * 0) + (b * 0 * (b * 0) + b * 1 * (b * 1))) with (b * b * 2) by ring.
    rewrite sqrt_mult_alt by nra. now rewrite sqrt_square by lra.
  Qed.
  Fixpoint mk (k : nat) : R := match k with O => sqrt 2 | S k => ((4 - mk k) / 3) ^ 4 * mk k end.
  Fixpoint qk (k : nat) : R := match k with O => 1 | S k => qk k * ((4 - mk k) / 3) end.
  Lemma z3 : zof 2 3 Bsc = sqrt 2 / b.
  Proof.
    unfold zof. rewrite fro_sc. pose proof Rlt_sqrt2_0. pose proof (sqrt_sqrt 2 ltac:(lra)) as Hs. apply Rmult_eq_reg_r with (r := 2 * (b * sqrt 2) * b); [|nra].
    replace ((1 + 3) / (2 * (b * sqrt 2)) * (2 * (b * sqrt 2) * b)) with (4 * b) by (field; lra). replace (sqrt 2 / b * (2 * (b * sqrt 2) * b)) with (2 * b * (sqrt 2 * sqrt 2)) by (field; lra). rewrite Hs. ring.
  Qed.
  Lemma M3 k : meq 2 (iterM 2 3 4 (startM 2 3 Bsc) k) (mscal (mk k) idm).
  Proof.
    induction k as [|k IH].
    - intros i j _ _. cbn [iterM mk]. unfold startM. rewrite z3. unfold Bsc, mscal. field. lra.
    - cbn [iterM mk]. unfold stepM. assert (EP : meq 2 (stepP 3 (iterM 2 3 4 (startM 2 3 Bsc) k)) (mscal ((4 - mk k) / 3) idm)).
      { unfold stepP. rewrite IH. intros i j _ _. unfold madd, mscal, al. field. }
      rewrite EP, IH, mpow_scal_id, mm_scal_l, mm_id_l. intros i j _ _. unfold mscal. ring.
  Qed.
  Lemma H3 k : meq 2 (iterH 2 3 4 (startM 2 3 Bsc) (startH 2 3 Bsc) k) (mscal (qk k * Rpower (sqrt 2 / b) (1 / 3)) idm).
  Proof.
    induction k as [|k IH].
    - intros i j _ _. cbn [iterH qk]. unfold startH. rewrite z3. unfold mscal. ring.
    - cbn [iterH qk]. unfold stepH. assert (EP : meq 2 (stepP 3 (iterM 2 3 4 (startM 2 3 Bsc) k)) (mscal ((4 - mk k) / 3) idm)).
      { unfold stepP. rewrite (M3 k). intros i j _ _. unfold madd, mscal, al. field. }
      rewrite EP, IH, mm_scal_l, mm_id_l. intros i j _ _. unfold mscal. ring.
  Qed.
  Lemma mq k : mk k = sqrt 2 * qk k ^ 4.
  Proof. induction k as [|k IH]; cbn [mk qk]; [ring|]. rewrite IH. ring. Qed.
  Lemma sqrt2_bounds : 14142 / 10000 <= sqrt 2 <= 14143 / 10000.
  Proof.
    split.
    - apply Rsqr_incr_0_var; [|apply sqrt_pos]. unfold Rsqr. rewrite sqrt_sqrt by lra. lra.
    - apply Rsqr_incr_0_var; [|lra]. unfold Rsqr. rewrite sqrt_sqrt by lra. lra.
  Qed.
  Lemma contract m : 7 / 10 <= m <= 142 / 100 -> Rabs (((4 - m) / 3) ^ 4 * m - 1) <= 2 / 3 * Rabs (m - 1).
  Proof.
    intros H. set (t := m - 1). replace (((4 - m) / 3) ^ 4 * m - 1) with (t * (- (1 / 3) - 2 / 3 * t + 14 / 27 * t ^ 2 - 11 / 81 * t ^ 3 + t ^ 4 / 81)) by (unfold t; field).
    rewrite Rabs_mult, (Rmult_comm (2 / 3) (Rabs t)). apply Rmult_le_compat_l; [apply Rabs_pos|]. apply Rabs_le.
    assert (Ht : - (3 / 10) <= t <= 42 / 100) by (unfold t; lra). clearbody t. clear m H. destruct Ht as [H1 H1'].
    assert (H2 : 0 <= (t + 3 / 10) * (42 / 100 - t)) by (apply Rmult_le_pos; lra).
    assert (H2' : 0 <= t * t <= 18 / 100) by (split; nra). destruct H2' as [H2a H2b].
    assert (H3a : t * (t * t) <= 76 / 1000) by (destruct (Rle_dec 0 t); nra). assert (H3b : - (54 / 1000) <= t * (t * t)) by (destruct (Rle_dec 0 t); nra).
    assert (H4a : 0 <= t * t * (t * t)) by nra. assert (H4b : t * t * (t * t) <= 4 / 100) by nra.
    replace (t ^ 2) with (t * t) by ring. replace (t ^ 3) with (t * (t * t)) by ring. replace (t ^ 4) with (t * t * (t * t)) by ring. lra.
  Qed.
  Lemma mk_range k : 7 / 10 <= mk k <= 142 / 100 /\ Rabs (mk k - 1) <= 42 / 100 * (2 / 3) ^ k.
  Proof.
    induction k as [|k [IH1 IH2]].
    - cbn [mk pow]. pose proof sqrt2_bounds. split; [lra|]. rewrite Rabs_right; lra.
    - pose proof (contract (mk k) IH1) as C. cbn [mk pow]. assert (Hb2 : Rabs (((4 - mk k) / 3) ^ 4 * mk k - 1) <= 42 / 100 * (2 / 3 * (2 / 3) ^ k)) by nra. split; [|exact Hb2].
      assert (P1 : 0 < (2 / 3) ^ k <= 1) by (split; [apply pow_lt; lra|rewrite <- (pow1 k); apply pow_incr; lra]).
      assert (H28 : Rabs (((4 - mk k) / 3) ^ 4 * mk k - 1) <= 28 / 100) by nra. pose proof (Rle_abs (((4 - mk k) / 3) ^ 4 * mk k - 1)). pose proof (Rle_abs (- (((4 - mk k) / 3) ^ 4 * mk k - 1))) as HH. rewrite Rabs_Ropp in HH. lra.
  Qed.
  Lemma qk_pos k : 0 < qk k.
  Proof. induction k as [|k IH]; cbn [qk]; [lra|]. destruct (mk_range k) as [H _]. apply Rmult_lt_0_compat; [exact IH|lra]. Qed.
  (** When the reported error is small, the cube of the result is still off by 5 percent. *)
  Lemma cube_off k : Rabs (mk k - 1) <= 1 / 100 -> 1 + 5 / 100 <= sqrt 2 * qk k ^ 3.
  Proof.
    intros H. pose proof (qk_pos k) as Hq. pose proof sqrt2_bounds as Hs. pose proof (mq k) as E. pose proof (Rle_abs (- (mk k - 1))) as HH. rewrite Rabs_Ropp in HH. set (q := qk k) in *.
    assert (H4 : 699 / 1000 <= q ^ 4) by nra. destruct (Rle_lt_dec (743 / 1000) (q ^ 3)) as [|Hl]; [nra|]. exfalso.
    assert (Hq9 : q < 91 / 100). { destruct (Rlt_le_dec q (91 / 100)) as [|Hg]; [assumption|]. exfalso. assert (828 / 1000 <= q * q) by nra. assert (753 / 1000 <= q ^ 3) by (replace (q ^ 3) with (q * q * q) by ring; nra). lra. }
    replace (q ^ 4) with (q ^ 3 * q) in H4 by ring. nra.
  Qed.
End Three.

(*@ C54_p3_is_wrong : for p = 3 the loop multiplies by the fourth power, so the returned matrix is not an inverse cube root although the reported error is small: for every 2 x 2 matrix a I with a > 0, every ridge_epsilon > 0, every start vector v <> 0, tolerance 0.01 and num_iters >= 10, the reported error is at most 0.01, but every diagonal entry of H^3 B - I is at least 0.05. *)
Lemma root_p3 : forall `{P : Platform} (draw : nat -> F) (d : fdt) (a : R) (v : rvec) (N : Z) (eps : R),
  0 < a -> 0 < eps -> (forall i, draw i = Fin (v i)) -> ~ vzero 2 v -> (10 <= N)%Z ->
  exists (s e : R) (h : tensor) (H : rmat), matrix_inverse_pth_root draw (mkT d [2; 2]%nat [Fin a; Fin 0; Fin 0; Fin a]) 3 N (Fin eps) (Fin (1 / 100)) = Ok (h, Fin e) /\ is_mat h d 2 H /\ 0 <= s /\
  e <= 1 / 100 /\ forall i, (i < 2)%nat -> 5 / 100 <= mm 2 (mpow 2 H 3) (damped (mscal a idm) (ridge_of eps s)) i i - 1.
Proof.
  intros P draw d a v N eps Ha Heps Hd Hv HN. set (A := mscal a idm).
  assert (HA : is_mat (mkT d [2; 2]%nat [Fin a; Fin 0; Fin 0; Fin a]) d 2 A).
  { repeat split. intros [|[|i]] [|[|j]] Hi Hj; try lia; cbn; do 2 f_equal; unfold A, mscal, idm; cbn [Nat.eqb]; ring. }
  assert (HS : msym 2 A) by (intros i j _ _; unfold A, mscal, idm; now rewrite Nat.eqb_sym).
  assert (HQ : mpsd 2 A). { intros w. unfold ip, mv. rewrite !Sig2. unfold A, mscal, idm. cbn [Nat.eqb]. generalize (w 0%nat), (w 1%nat). intros x y. nra. }
  destruct (max_ev_val draw _ d 2 A v (1 / 1000000) HA Hd HS Hv ltac:(lra)) as (out & s & Es & Hs). specialize (Hs HQ). pose proof (ridge_pos eps s Heps) as Hr. set (b := a + ridge_of eps s). assert (Hb : 0 < b) by (unfold b; lra).
  assert (EB : meq 2 (damped A (ridge_of eps s)) (Bsc b)) by (intros i j _ _; unfold damped, Bsc, A, madd, mscal, b; ring).
  assert (EBf : forall i j, damped A (ridge_of eps s) i j = Bsc b i j) by (intros i j; unfold damped, Bsc, A, madd, mscal, b; ring).
  assert (HB : 0 < fro 2 (damped A (ridge_of eps s))) by (apply damped_fro; [lia|exact HQ|exact Hr]).
  destruct (root_general draw _ d 2 A v s 3 N eps (1 / 100) out HA ltac:(lia) ltac:(lia) ltac:(lia) Hd Es HB) as (k & h & run & E & Eh & Hk & Hh & HE & Hcase & _).
  rewrite branch3 in Hh, HE, Hcase. change (pow_of 2) with 4%nat in *.
  assert (Efro : fro 2 (damped A (ridge_of eps s)) = fro 2 (Bsc b)) by (unfold fro; f_equal; apply Sig_ext; intros; apply Sig_ext; intros; now rewrite EBf).
  assert (EM0 : meq 2 (startM 2 3 (damped A (ridge_of eps s))) (startM 2 3 (Bsc b))) by (intros i j _ _; unfold startM, zof; now rewrite Efro, EBf).
  assert (EH0 : meq 2 (startH 2 3 (damped A (ridge_of eps s))) (startH 2 3 (Bsc b))) by (intros i j _ _; unfold startH, zof; now rewrite Efro).
  assert (EM : forall j, meq 2 (iterM 2 3 4 (startM 2 3 (damped A (ridge_of eps s))) j) (mscal (mk j) idm)).
  { intros j. rewrite <- (M3 b Hb j). induction j as [|j IH]; [exact EM0|]. cbn [iterM]. unfold stepM, stepP. now rewrite IH. }
  assert (EH : forall j, meq 2 (iterH 2 3 4 (startM 2 3 (damped A (ridge_of eps s))) (startH 2 3 (damped A (ridge_of eps s))) j) (mscal (qk j * Rpower (sqrt 2 / b) (1 / 3)) idm)).
  { intros j. rewrite <- (H3 b Hb j). induction j as [|j IH]; [exact EH0|]. cbn [iterH]. unfold stepH, stepP. rewrite IH. now rewrite (EM j), (M3 b Hb j). }
  assert (Emax : forall j e', is_maxdiff 2 (iterM 2 3 4 (startM 2 3 (damped A (ridge_of eps s))) j) idm e' -> e' = Rabs (mk j - 1)).
  { intros j e' He'. apply (maxdiff_ext 2 _ _ _ e' (EM j)) in He'. destruct He' as [H1 (i & l & Hi & Hl & H2)]. unfold mscal, idm in *.
    specialize (H1 0%nat 0%nat ltac:(lia) ltac:(lia)). cbn [Nat.eqb] in H1. rewrite Rmult_1_r in H1. apply Rle_antisym; [|exact H1]. rewrite <- H2. destruct (Nat.eqb i l); [rewrite Rmult_1_r; lra|]. rewrite Rmult_0_r, Rminus_0_r, Rabs_R0. apply Rabs_pos. }
  apply Emax in HE. set (j := if run then k else (k - 1)%nat) in *.
  assert (Hsmall : E <= 1 / 100 /\ Rabs (mk j - 1) <= 1 / 100).
  { destruct Hcase as [(Er & Hc)|(Er & Hk1 & E' & HE' & Hc)]; unfold j; rewrite Er.
    - assert (HEs : E <= 1 / 100). { destruct Hc as [Hc|Hc]; [exact Hc|]. rewrite HE. destruct (mk_range k) as [_ Hm]. eapply Rle_trans; [exact Hm|].
        assert (Hk10 : (10 <= k)%nat) by lia. replace k with (10 + (k - 10))%nat by lia. rewrite pow_add. assert (0 < (2 / 3) ^ (k - 10) <= 1) by (split; [apply pow_lt; lra|rewrite <- (pow1 (k - 10)); apply pow_incr; lra]). set (y := (2 / 3) ^ (k - 10)) in *. cbn [pow]. nra. }
      split; [exact HEs|]. now rewrite <- HE.
    - apply Emax in HE'. destruct k as [|k]; [lia|]. cbn [Nat.sub] in *. rewrite Nat.sub_0_r in *. destruct (mk_range k) as [Hm _]. pose proof (contract (mk k) Hm) as C. change (((4 - mk k) / 3) ^ 4 * mk k) with (mk (S k)) in C. rewrite <- HE, <- HE' in C. pose proof (Rabs_pos (mk k - 1)). assert (E' = 0) by lra. rewrite <- HE'. lra. }
  destruct Hsmall as [HEs Hms]. exists s, E, h. eexists. split; [exact Eh|]. split; [exact Hh|]. split; [exact Hs|]. split; [exact HEs|]. intros i Hi.
  assert (Ef : meq 2 (mm 2 (mpow 2 (iterH 2 3 4 (startM 2 3 (damped A (ridge_of eps s))) (startH 2 3 (damped A (ridge_of eps s))) j) 3) (damped A (ridge_of eps s))) (mscal (sqrt 2 * qk j ^ 3) idm)).
  { rewrite (EH j), EB, mpow_scal_id, mm_scal_l, mm_id_l. unfold Bsc. intros i' j' _ _. unfold mscal. rewrite <- Rmult_assoc. f_equal.
    rewrite Rpow_mult_distr. assert (Ep : Rpower (sqrt 2 / b) (1 / 3) ^ 3 = sqrt 2 / b). { assert (0 < sqrt 2 / b) by (apply Rdiv_lt_0_compat; [apply Rlt_sqrt2_0|exact Hb]). rewrite <- Rpower_pow by apply exp_pos. rewrite Rpower_mult. replace (1 / 3 * INR 3) with 1 by (cbn; field). now apply Rpower_1. } rewrite Ep. field. lra. }
  rewrite (Ef i i Hi Hi). unfold mscal, idm. rewrite Nat.eqb_refl. pose proof (cube_off j Hms). lra.
Qed.

(*@ex C54_example *)
Lemma root_example : forall `{P : Platform}, exists h H e r, matrix_inverse_pth_root (fun i => if Nat.eqb i 0 then Fin 1 else Fin 0) ex_matrix 2 100 (Fin (1 / 1000000)) (Fin (1 / 1000000)) = Ok (h, Fin e) /\ is_mat h F32 2 H /\
  exists s, 0 <= s /\ is_residual 2 2 H (damped ex_A (ridge_of (1 / 1000000) s)) r /\ r <= e.
Proof.
  intros P. destruct (root_residual (fun i => if Nat.eqb i 0 then Fin 1 else Fin 0) ex_matrix F32 2 ex_A (fun i => if Nat.eqb i 0 then 1 else 0) 2 100 (1 / 1000000) (1 / 1000000) ex_is ltac:(lia) ex_sym ex_psd) as (out & s & h & H & e & r & k & _ & Hs & E & Hh & _ & Hr & Hre & _ & _).
  - intros i. now destruct (Nat.eqb i 0).
  - intros Z. specialize (Z 0%nat ltac:(lia)). cbn in Z. lra.
  - cbn. auto.
  - lia.
  - lra.
  - exists h, H, e, r. split; [exact E|]. split; [exact Hh|]. exists s. split; [exact Hs|]. split; [exact Hr|exact Hre].
Qed.

(** ** Termination in any arithmetic *)
Section Term.
  Context `{O : Ops}.
  Definition sq (n : nat) (t : tensor) : Prop := shp t = [n; n] /\ twf t.
  Lemma bin_sq op (a b : tensor) n : sq n a -> sq n b -> exists r, bin op a b = Ok r /\ sq n r /\ dt r = promote (dt a) (dt b).
  Proof.
    intros [Sa Wa] [Sb Wb]. rewrite bin_same_tab by congruence. eexists. split; [reflexivity|]. repeat split; [cbn; exact Sa|apply tab_wf].
  Qed.
  Lemma bin_sq_l op (b : tensor) d c n : sq n b -> exists r, bin op (scalar d c) b = Ok r /\ sq n r /\ dt r = promote d (dt b).
  Proof.
    intros [Sb Wb]. rewrite (bin_tab op (scalar d c) b [n; n]); [|reflexivity|exact Wb|rewrite Sb; apply bshape_nil_l]. eexists. split; [reflexivity|]. repeat split. apply tab_wf.
  Qed.
  Lemma bin_sq_r op (b : tensor) d c n : sq n b -> exists r, bin op b (scalar d c) = Ok r /\ sq n r /\ dt r = promote (dt b) d.
  Proof.
    intros [Sb Wb]. rewrite (bin_tab op b (scalar d c) [n; n]); [|exact Wb|reflexivity|rewrite Sb; apply bshape_nil_r]. eexists. split; [reflexivity|]. repeat split. apply tab_wf.
  Qed.
  Lemma matmul_sq (a b : tensor) n : sq n a -> sq n b -> exists r, matmul a b = Ok r /\ sq n r /\ dt r = promote (dt a) (dt b).
  Proof. intros [Sa Wa] [Sb Wb]. unfold matmul. rewrite Sa, Sb, Nat.eqb_refl. eexists. split; [reflexivity|]. repeat split. apply tab_wf. Qed.
  Lemma eye_sq n : sq n (eye n).
  Proof. split; [reflexivity|apply tab_wf]. Qed.
  Lemma mad_sq (m : tensor) n : (0 < n)%nat -> sq n m -> exists e, max_abs_diff m (eye n) = Ok e.
  Proof.
    intros Hn Hm. unfold max_abs_diff. destruct (bin_sq fsub m (eye n) n Hm (eye_sq n)) as (r & E & [Sr Wr] & _). rewrite E. cbn [rbind]. destruct (dat r) as [|x l] eqn:Ed; [|eexists; reflexivity].
    unfold twf in Wr. rewrite Ed, Sr in Wr. cbn in Wr. nia.
  Qed.
  Lemma mat_power_sq (m : tensor) n p : sq n m -> exists r, mat_power m p = Ok r /\ sq n r /\ dt r = dt m.
  Proof.
    intros Hm. unfold mat_power.
    assert (H2 : exists r, mat_pow_2 m = Ok r /\ sq n r /\ dt r = dt m). { destruct (matmul_sq m m n Hm Hm) as (r & E & Hr & D). exists r. rewrite promote_same in D. auto. }
    assert (H4 : exists r, mat_pow_4 m = Ok r /\ sq n r /\ dt r = dt m). { destruct H2 as (r & E & Hr & D). unfold mat_pow_4. rewrite E. cbn [rbind]. destruct (matmul_sq r r n Hr Hr) as (r' & E' & Hr' & D'). exists r'. rewrite promote_same in D'. split; [exact E'|]. split; [exact Hr'|congruence]. }
    assert (H8 : exists r, mat_pow_8 m = Ok r /\ sq n r /\ dt r = dt m). { destruct H4 as (r & E & Hr & D). unfold mat_pow_8. rewrite E. cbn [rbind]. destruct (matmul_sq r r n Hr Hr) as (r' & E' & Hr' & D'). exists r'. rewrite promote_same in D'. split; [exact E'|]. split; [exact Hr'|congruence]. }
    destruct (_ <=? 0)%Z; [exists m; auto|]. destruct (_ =? 1)%Z; [exact H2|]. destruct (_ =? 2)%Z; [exact H4|exact H8].
  Qed.
End Term.
(*@ C54_terminates : in any arithmetic, on every square matrix of size n >= 2, for every p, ridge, tolerance, iteration bound and start vector, the call returns (its loop makes at most num_iters steps): a matrix of the same shape and dtype, and an error. *)
Lemma root_terminates : forall `{O : Ops} (draw : nat -> F) (matrix : tensor) (n : nat) (p N : Z) (eps tol : F), shp matrix = [n; n] -> twf matrix -> (2 <= n)%nat ->
  exists h e, matrix_inverse_pth_root draw matrix p N eps tol = Ok (h, e) /\ dt h = dt matrix /\ shp h = [n; n] /\ twf h.
Proof.
  intros O draw matrix n p N eps tol Sm Wm Hn. assert (Hm : sq n matrix) by now split. unfold matrix_inverse_pth_root. rewrite Sm.
  destruct (power_terminates draw matrix n 100 (flit (1 # 1000000)) Sm) as (_ & _ & v & s & _ & _ & E & _). rewrite E. cbn [rbind]. replace (Nat.eqb n 1) with false by (symmetry; apply Nat.eqb_neq; lia).
  set (D := promote (dt matrix) F32). match goal with |- context [scalar (dt matrix) ?r] => set (rd := r) end.
  destruct (bin_sq_l fmul (eye n) (dt matrix) rd n (eye_sq n)) as (ri & Eri & Hri & Dri). rewrite Eri. cbn [rbind].
  destruct (bin_sq fadd matrix ri n Hm Hri) as (dm & Edm & Hdm & Ddm). rewrite Edm. cbn [rbind].
  match goal with |- context [scalar D ?r] => set (z := r) end.
  destruct (bin_sq_r fmul dm D z n Hdm) as (m0 & Em0 & Hm0 & Dm0). rewrite Em0. cbn [rbind].
  destruct (mad_sq m0 n ltac:(lia) Hm0) as (e0 & Ee0). rewrite Ee0. cbn [rbind]. match goal with |- context [bin fmul (eye n) (scalar D ?r)] => set (pw := r) end.
  destruct (bin_sq_r fmul (eye n) D pw n (eye_sq n)) as (h0 & Eh0 & Hh0 & Dh0). rewrite Eh0. cbn [rbind].
  set (I := fun st : root_state => let '(i, m, h, oh, e, run) := st in sq n m /\ sq n h /\ sq n oh).
  match goal with |- context [while_loop _ ?c ?b ?s0] => set (st0 := s0); destruct (loop_exits c b (fun st => fst (fst (fst (fst (fst st))))) N I) with (fuel := Z.to_nat N) (s := st0) as (k & st & _ & _ & G3 & G4 & _) end.
  - intros [[[[[i m] h] oh] e] run] H. cbn in H. apply andb_prop in H as [H _]. cbn. now apply Z.ltb_lt.
  - intros [[[[[i m] h] oh] e] run] (Hm' & Hh' & Hoh') _. unfold root_body.
    match goal with |- context [bin fmul (scalar F32 ?r) (eye n)] => destruct (bin_sq_l fmul (eye n) F32 r n (eye_sq n)) as (ai & Eai & Hai & _) end. rewrite Eai. cbn [rbind].
    match goal with |- context [bin fmul (scalar F32 ?r) m] => destruct (bin_sq_l fmul m F32 r n Hm') as (am & Eam & Ham & _) end. rewrite Eam. cbn [rbind].
    destruct (bin_sq fadd ai am n Hai Ham) as (mi & Emi & Hmi & _). rewrite Emi. cbn [rbind]. destruct (mat_power_sq mi n p Hmi) as (pw' & Epw & Hpw & _). rewrite Epw. cbn [rbind].
    destruct (matmul_sq pw' m n Hpw Hm') as (nm & Enm & Hnm & _). rewrite Enm. cbn [rbind]. destruct (matmul_sq h mi n Hh' Hmi) as (nh & Enh & Hnh & _). rewrite Enh. cbn [rbind].
    destruct (mad_sq nm n ltac:(lia) Hnm) as (ne & Ene). rewrite Ene. cbn [rbind]. eexists. split; [reflexivity|]. split; [|reflexivity]. unfold I. auto.
  - unfold I, st0. auto.
  - cbn. lia.
  - rewrite G3. destruct st as [[[[[i m] h] oh] e] run]. destruct G4 as (Hm' & Hh' & Hoh'). cbn [rbind]. destruct (mad_sq m n ltac:(lia) Hm') as (er & Eer). rewrite Eer. cbn [rbind].
    match goal with |- context [bin fmul (scalar D ?r) h] => destruct (bin_sq_l fmul h D r n Hh') as (a & Ea & Ha & _) end. rewrite Ea. cbn [rbind].
    match goal with |- context [bin fmul (scalar D ?r) oh] => destruct (bin_sq_l fmul oh D r n Hoh') as (b & Eb & Hb & _) end. rewrite Eb. cbn [rbind].
    destruct (bin_sq fadd a b n Ha Hb) as (r & Er & [Sr Wr] & _). rewrite Er. cbn [rbind]. eexists _, _. split; [reflexivity|]. unfold astype. cbn [dt shp]. split; [reflexivity|]. split; [exact Sr|]. unfold twf. cbn [dat shp]. rewrite map_length. exact Wr.
Qed.
