(** matrix_inverse_pth_root converges (C54). *)
From Verif Require Export P_root.
From Coq Require Import List Psatz Reals Lia.
Import ListNotations.
Open Scope R_scope.
(*@header
From Coq Require Import List.
Import ListNotations.
Open Scope R_scope.
*)

(** Quadratic form. *)
Definition qf (n : nat) (A : rmat) (v : rvec) : R := ip n v (mv n A v).

(** ** Moments of a symmetric matrix: ⟨v, U^i v⟩ *)
Section Mom.
  Variables (n : nat) (U : rmat).
  Hypothesis HU : msym n U.
  Definition mom (v : rvec) (i : nat) : R := ip n v (mv n (mpow n U i) v).
  Lemma mv_id v : veq n (mv n idm v) v.
  Proof. intros i Hi. apply (Sig_delta n v i Hi). Qed.
  Lemma mom_0 v : mom v 0 = ip n v v.
  Proof. unfold mom. cbn [mpow]. now rewrite mv_id. Qed.
  Lemma mom_1 v : mom v 1 = qf n U v.
  Proof. unfold mom, qf. now rewrite mpow_1. Qed.
  Lemma msym_id : msym n idm.
  Proof. intros i j _ _. unfold idm. now rewrite Nat.eqb_sym. Qed.
  Lemma msym_mm A B : msym n A -> msym n B -> comm n A B -> msym n (mm n A B).
  Proof.
    intros SA SB C i j Hi Hj. transitivity (mm n B A j i); [|symmetry; now apply C]. unfold mm. apply Sig_ext. intros k Hk. rewrite (SA i k), (SB k j) by assumption. ring.
  Qed.
  Lemma msym_pow i : msym n (mpow n U i).
  Proof. induction i as [|i IH]; cbn [mpow]; [apply msym_id|]. apply msym_mm; [exact HU|exact IH|apply comm_pow, comm_refl]. Qed.
  Lemma mom_shift v i j : mom (mv n (mpow n U j) v) i = mom v (i + 2 * j).
  Proof.
    unfold mom. rewrite <- (ip_sym n _ v _ (msym_pow j)). rewrite <- (mv_mm n (mpow n U i)), <- (mv_mm n (mpow n U j)). rewrite <- !mpow_add. replace (j + (i + j))%nat with (i + 2 * j)%nat by lia. reflexivity.
  Qed.
  Lemma mom_comb v x y i : mom (fun k => x * v k + y * mv n U v k) i = x * x * mom v i + 2 * x * y * mom v (i + 1) + y * y * mom v (i + 2).
  Proof.
    unfold mom. set (A := mpow n U i). rewrite (mv_add n A (fun k => x * v k) (fun k => y * mv n U v k)). rewrite ip_add_l, !ip_add_r. rewrite (mv_scal n A x v), (mv_scal n A y (mv n U v)). rewrite !ip_scal_l, !ip_scal_r.
    assert (E1 : ip n v (mv n A (mv n U v)) = mom v (i + 1)). { unfold mom, A. rewrite <- mv_mm, mpow_add, mpow_1. reflexivity. }
    assert (E2 : ip n (mv n U v) (mv n A v) = mom v (i + 1)). { unfold mom, A. rewrite <- (ip_sym n U v _ HU), <- mv_mm. replace (i + 1)%nat with (S i) by lia. reflexivity. }
    assert (E3 : ip n (mv n U v) (mv n A (mv n U v)) = mom v (i + 2)). { unfold mom, A. rewrite <- (ip_sym n U v _ HU), <- !mv_mm. replace (i + 2)%nat with (S (i + 1)) by lia. cbn [mpow]. rewrite mpow_add, mpow_1. now rewrite ?mm_assoc. }
    fold A in E1, E2, E3. rewrite E1, E2, E3. unfold mom. fold A. ring.
  Qed.
  Lemma parity i : exists j, i = (2 * j)%nat \/ i = (1 + 2 * j)%nat.
  Proof. exists (i / 2)%nat. pose proof (Nat.div_mod i 2 ltac:(lia)). pose proof (Nat.mod_upper_bound i 2 ltac:(lia)). lia. Qed.
  Hypothesis HP : forall v, 0 <= qf n U v.
  Lemma mom_nonneg v i : 0 <= mom v i.
  Proof.
    destruct (parity i) as (j & [-> | ->]); [|rewrite <- mom_shift, mom_1; apply HP]. replace (2 * j)%nat with (0 + 2 * j)%nat by lia. rewrite <- mom_shift, mom_0. apply ip_nonneg.
  Qed.
  Lemma mom_up c v i : (forall w, qf n U w <= c * ip n w w) -> 0 <= c -> mom v (i + 1) <= c * mom v i.
  Proof.
    intros HC Hc.
    assert (A : forall w j, mom w (2 * j + 1) <= c * mom w (2 * j)).
    { intros w j. replace (2 * j + 1)%nat with (1 + 2 * j)%nat by lia. replace (2 * j)%nat with (0 + 2 * j)%nat at 2 by lia. rewrite <- !mom_shift, mom_0, mom_1. apply HC. }
    destruct (parity i) as (j & [-> | ->]); [apply A|]. replace (1 + 2 * j + 1)%nat with (2 + 2 * j)%nat by lia. rewrite <- !mom_shift. set (w := mv n (mpow n U j) v).
    pose proof (A w 1%nat) as B1. cbn [Nat.mul Nat.add] in B1. pose proof (mom_nonneg (fun k => c * w k + -1 * mv n U w k) 1) as B2. rewrite mom_comb in B2. cbn [Nat.add] in B2.
    destruct (Req_dec c 0) as [->|Hc0]; [|apply Rmult_le_reg_l with c; nra].
    pose proof (mom_nonneg w 2) as B3. pose proof (A w 0%nat) as B4. cbn [Nat.mul Nat.add] in B4. pose proof (mom_nonneg w 1) as B5. rewrite Rmult_0_l in *.
    pose proof (mom_nonneg w 3) as B6. assert (B7 : mom w 1 = 0) by lra. assert (B8 : mom w 3 = 0) by lra.
    pose proof (mom_nonneg (fun k => 1 * w k + -1 * mv n U w k) 1) as B9. rewrite mom_comb in B9. cbn [Nat.add] in B9. lra.
  Qed.
  Lemma mom_up_pow c v i : (forall w, qf n U w <= c * ip n w w) -> 0 <= c -> mom v i <= c ^ i * ip n v v.
  Proof.
    intros HC Hc. induction i as [|i IH]; [rewrite mom_0; cbn; lra|]. replace (S i) with (i + 1)%nat by lia. eapply Rle_trans; [now apply mom_up|]. rewrite Nat.add_1_r. cbn [pow]. rewrite Rmult_assoc. apply Rmult_le_compat_l; assumption.
  Qed.
  Lemma mom_down c v i : (forall w, c * ip n w w <= qf n U w) -> 0 <= c -> c * mom v i <= mom v (i + 1).
  Proof.
    intros HC Hc. destruct (parity i) as (j & [-> | ->]).
    - replace (2 * j + 1)%nat with (1 + 2 * j)%nat by lia. replace (2 * j)%nat with (0 + 2 * j)%nat at 1 by lia. rewrite <- !mom_shift, mom_0, mom_1. apply HC.
    - replace (1 + 2 * j + 1)%nat with (2 + 2 * j)%nat by lia. rewrite <- !mom_shift. set (w := mv n (mpow n U j) v).
      assert (B : 0 <= mom (fun k => - c * w k + 1 * mv n U w k) 0) by (rewrite mom_0; apply ip_nonneg). rewrite mom_comb in B. cbn [Nat.add] in B. pose proof (HC w) as B1. rewrite <- mom_0, <- mom_1 in B1. nra.
  Qed.
  Lemma mom_down_pow c v i : (forall w, c * ip n w w <= qf n U w) -> 0 <= c -> c ^ i * ip n v v <= mom v i.
  Proof.
    intros HC Hc. induction i as [|i IH]; [rewrite mom_0; cbn; lra|]. replace (S i) with (i + 1)%nat by lia. eapply Rle_trans; [|now apply mom_down]. rewrite Nat.add_1_r. cbn [pow]. rewrite Rmult_assoc. apply Rmult_le_compat_l; assumption.
  Qed.
  (** a_0 - (q+1) a_q + q a_(q+1) = sum_{i<q} (i+1) (a_i - 2 a_(i+1) + a_(i+2)) *)
  Lemma mom_tel v q : ip n v v - (INR q + 1) * mom v q + INR q * mom v (q + 1) = Sig q (fun i => (INR i + 1) * mom (fun k => 1 * v k + -1 * mv n U v k) i).
  Proof.
    induction q as [|q IH]; [unfold Sig; cbn [seq map Nat.add]; rewrite rsum_nil, mom_0; cbn; ring|]. rewrite Sig_S, <- IH, mom_comb, S_INR. replace (S q + 1)%nat with (q + 2)%nat by lia. replace (S q) with (q + 1)%nat by lia. ring.
  Qed.
End Mom.

Lemma Sig_le n f g : (forall i, (i < n)%nat -> f i <= g i) -> Sig n f <= Sig n g.
Proof. intros H. induction n as [|n IH]; [unfold Sig; cbn; lra|]. rewrite !Sig_S. apply Rplus_le_compat; [apply IH; intros; apply H; lia|apply H; lia]. Qed.
(** ** One step of the iteration *)
Section Newton.
  Variables (n : nat) (p : Z) (q : nat).
  Hypotheses (Hq : Z.of_nat q = p) (Hq0 : (0 < q)%nat).
  Let Q := INR q.
  Lemma Q1 : 1 <= Q.
  Proof. unfold Q. change 1 with (INR 1). now apply le_INR. Qed.
  Lemma al_Q : al p = - / Q.
  Proof. unfold al, Q. rewrite <- Hq, <- INR_IZR_INZ. pose proof Q1. unfold Q in *. field. lra. Qed.
  Lemma mv_comb A x y v : veq n (mv n (madd (mscal x idm) (mscal y A)) v) (fun k => x * v k + y * mv n A v k).
  Proof.
    intros i Hi. unfold mv, madd, mscal. rewrite (Sig_ext n _ (fun j => x * (idm i j * v j) + y * (A i j * v j))) by (intros; ring). rewrite Sig_add, !Sig_scal. unfold idm. now rewrite (Sig_delta n v i Hi).
  Qed.
  Lemma qf_comb A x y v : qf n (madd (mscal x idm) (mscal y A)) v = x * ip n v v + y * qf n A v.
  Proof. unfold qf. rewrite mv_comb, ip_add_r, !ip_scal_r. reflexivity. Qed.
  Lemma msym_comb A x y : msym n A -> msym n (madd (mscal x idm) (mscal y A)).
  Proof. intros S i j Hi Hj. unfold madd, mscal. rewrite (S i j) by assumption. rewrite (msym_id n i j) by assumption. reflexivity. Qed.
  Variable M : rmat.
  Hypothesis SM : msym n M.
  Let U := stepP p M.
  Lemma U_sym : msym n U.
  Proof. now apply msym_comb. Qed.
  Lemma qf_U v : qf n U v = ip n v v + / Q * (ip n v v - qf n M v).
  Proof. unfold U, stepP. rewrite qf_comb, al_Q. ring. Qed.
  Lemma M_of_U v : veq n (mv n M v) (fun k => (Q + 1) * v k + - Q * mv n U v k).
  Proof.
    intros k Hk. pose proof (mv_comb M (1 - al p) (al p) v k Hk) as E. unfold U, stepP. rewrite E, al_Q. pose proof Q1. field. lra.
  Qed.
  Lemma stepM_form v : qf n (stepM n p q M) v = (Q + 1) * mom n U v q - Q * mom n U v (q + 1).
  Proof.
    unfold qf, stepM. fold U. rewrite mv_mm, M_of_U. rewrite (mv_add n _ (fun k => (Q + 1) * v k) (fun k => - Q * mv n U v k)). rewrite ip_add_r. rewrite (mv_scal n _ (Q + 1) v), (mv_scal n _ (- Q) (mv n U v)). rewrite !ip_scal_r.
    unfold mom. rewrite <- mv_mm, (mpow_add n U q 1), mpow_1. ring.
  Qed.
  Lemma stepM_gap v : ip n v v - qf n (stepM n p q M) v = Sig q (fun i => (INR i + 1) * mom n U (fun k => 1 * v k + -1 * mv n U v k) i).
  Proof. rewrite <- (mom_tel n U U_sym v q), stepM_form. unfold Q. ring. Qed.
  Lemma stepM_sym : msym n (stepM n p q M).
  Proof.
    unfold stepM. fold U. apply msym_mm; [apply msym_pow, U_sym|exact SM|]. apply comm_sym, comm_pow. unfold U, stepP. apply comm_add; apply comm_scal; [apply comm_id|apply comm_refl].
  Qed.
  (** Never above the identity, as long as U is positive semidefinite. *)
  Lemma stepM_below : (forall v, 0 <= qf n U v) -> forall v, qf n (stepM n p q M) v <= ip n v v.
  Proof.
    intros HU v. assert (0 <= ip n v v - qf n (stepM n p q M) v); [|lra]. rewrite stepM_gap. apply Sig_nonneg. intros i _. apply Rmult_le_pos; [pose proof (pos_INR i); lra|apply mom_nonneg; [exact U_sym|exact HU]].
  Qed.
  Lemma geo_id c : c = 1 + / Q -> Sig q (fun i => (INR i + 1) * c ^ i) = Q * Q.
  Proof.
    intros Ec. pose proof Q1 as Q1'. assert (G : forall m, Sig m (fun i => (INR i + 1) * c ^ i) * ((1 - c) * (1 - c)) = 1 - (INR m + 1) * c ^ m + INR m * c ^ (m + 1)).
    { induction m as [|m IH]; [unfold Sig; cbn [seq map]; rewrite rsum_nil; cbn; ring|]. rewrite Sig_S, Rmult_plus_distr_r, IH, S_INR, !pow_add. cbn [pow]. ring. }
    specialize (G q). fold Q in G. assert (Ez : (Q + 1) * c ^ q = Q * c ^ (q + 1)). { rewrite pow_add, pow_1, Ec. field. lra. }
    replace (1 - (Q + 1) * c ^ q + Q * c ^ (q + 1)) with 1 in G by lra. replace ((1 - c) * (1 - c)) with (/ Q * / Q) in G by (rewrite Ec; ring).
    set (s := Sig q _) in *. replace s with (s * (/ Q * / Q) * (Q * Q)) by (field; lra). rewrite G. ring.
  Qed.
  (** Once between (1 - rho) I and I: the gap is squared. *)
  Definition within (rho : R) (A : rmat) : Prop := msym n A /\ forall v, (1 - rho) * ip n v v <= qf n A v <= ip n v v.
  Lemma stepM_square rho : 0 <= rho <= 1 -> within rho M -> within (rho * rho) (stepM n p q M) /\ forall v, qf n M v <= qf n (stepM n p q M) v.
  Proof.
    intros Hr (_ & HM). pose proof Q1 as Q1'. assert (Hi : 0 < / Q) by (apply Rinv_0_lt_compat; lra).
    assert (HU : forall v, 0 <= qf n U v). { intros v. rewrite qf_U. pose proof (HM v). pose proof (ip_nonneg n v). nra. }
    set (c := 1 + / Q). assert (HU2 : forall v, qf n U v <= c * ip n v v). { intros v. rewrite qf_U. unfold c. pose proof (HM v). pose proof (ip_nonneg n v). assert (0 <= qf n M v) by nra. nra. }
    set (E := madd (mscal 1 idm) (mscal (-1) M)). assert (SE : msym n E) by now apply msym_comb. assert (QE : forall v, qf n E v = ip n v v - qf n M v) by (intros v; unfold E; rewrite qf_comb; ring).
    assert (PE : forall v, 0 <= qf n E v) by (intros v; rewrite QE; pose proof (HM v); lra). assert (RE : forall v, qf n E v <= rho * ip n v v) by (intros v; rewrite QE; pose proof (HM v); lra).
    assert (G : forall v, ip n v v - qf n (stepM n p q M) v <= mom n E v 2).
    { intros v. rewrite stepM_gap. set (w := fun k => 1 * v k + -1 * mv n U v k).
      assert (Ew : Q * Q * ip n w w = mom n E v 2).
      { replace 2%nat with (0 + 2 * 1)%nat by reflexivity. rewrite <- mom_shift by exact SE. rewrite mom_0. rewrite mpow_1.
        assert (Ev : veq n (mv n E v) (fun k => - Q * w k)). { intros k Hk. unfold E. rewrite (mv_comb M 1 (-1) v k Hk), (M_of_U v k Hk). unfold w. ring. }
        rewrite Ev, ip_scal_l, ip_scal_r. ring. }
      rewrite <- Ew, <- (geo_id c eq_refl), <- Sig_scal_r. apply Sig_le. intros i _. rewrite Rmult_assoc. apply Rmult_le_compat_l; [pose proof (pos_INR i); lra|]. apply mom_up_pow; [exact U_sym|exact HU|exact HU2|unfold c; lra]. }
    assert (E2 : forall v, mom n E v 2 <= rho * qf n E v). { intros v. rewrite <- (mom_1 n E). apply (mom_up n E SE PE rho v 1 RE). lra. }
    split; [split; [exact stepM_sym|]|].
    - intros v. split; [|now apply stepM_below]. pose proof (G v) as G1. pose proof (E2 v) as G2. pose proof (RE v) as G3. pose proof (PE v). assert (rho * qf n E v <= rho * (rho * ip n v v)) by (apply Rmult_le_compat_l; lra). lra.
    - intros v. pose proof (G v) as G1. pose proof (E2 v) as G2. pose proof (PE v) as G3. pose proof (QE v). nra.
  Qed.
  Lemma stepM_first m : 0 <= m <= 1 -> (forall v, m * ip n v v <= qf n M v <= (Q + 1) / 2 * ip n v v) -> (q = 1%nat \/ exists h, q = (2 * h)%nat) -> within (1 - m / 2 ^ q) (stepM n p q M).
  Proof.
    intros Hm HM Hev. pose proof Q1 as Q1'. assert (Hi : 0 < / Q) by (apply Rinv_0_lt_compat; lra). destruct Hev as [E1|(h & Eh)].
    - assert (EQ : Q = 1) by (unfold Q; now rewrite E1). assert (W : within (1 - m) M). { split; [exact SM|]. intros v. pose proof (HM v). rewrite EQ in *. split; lra. }
      destruct (stepM_square (1 - m) ltac:(lra) W) as ((S1 & S2) & _). split; [exact S1|]. intros v. specialize (S2 v). split; [|apply S2]. eapply Rle_trans; [|apply S2]. apply Rmult_le_compat_r; [apply ip_nonneg|]. rewrite E1. cbn [pow]. nra.
    - assert (HU : forall v, / 2 * ip n v v <= qf n U v).
      { intros v. rewrite qf_U. pose proof (HM v) as B. pose proof (ip_nonneg n v) as B0. assert (/ Q * (qf n M v) <= / Q * ((Q + 1) / 2 * ip n v v)) by (apply Rmult_le_compat_l; lra).
        replace (/ Q * ((Q + 1) / 2 * ip n v v)) with (/ 2 * ip n v v + / Q * / 2 * ip n v v) in H by (field; lra). nra. }
      assert (HU0 : forall v, 0 <= qf n U v) by (intros v; pose proof (HU v); pose proof (ip_nonneg n v); lra).
      split; [exact stepM_sym|]. intros v. split; [|now apply stepM_below]. rewrite stepM_form. set (w := mv n (mpow n U h) v).
      assert (A0 : mom n U v q = ip n w w) by (rewrite <- (mom_0 n U), Eh; unfold w; rewrite mom_shift by exact U_sym; reflexivity).
      assert (A1 : mom n U v (q + 1) = qf n U w) by (rewrite <- (mom_1 n U), Eh; unfold w; rewrite mom_shift by exact U_sym; f_equal; lia).
      rewrite A1. pose proof (mom_down_pow n U U_sym (/ 2) v q HU ltac:(lra)) as D. rewrite A0 in *. rewrite (qf_U w). replace ((Q + 1) * ip n w w - Q * (ip n w w + / Q * (ip n w w - qf n M w))) with (qf n M w) by (field; lra).
      eapply Rle_trans; [|apply HM]. rewrite pow_inv in D. replace ((1 - (1 - m / 2 ^ q)) * ip n v v) with (m * (/ 2 ^ q * ip n v v)) by (unfold Rdiv; ring). apply Rmult_le_compat_l; [lra|exact D].
  Qed.
End Newton.
Lemma within_weaken n r r' A : r <= r' -> within n r A -> within n r' A.
Proof. intros H (S & W). split; [exact S|]. intros v. specialize (W v). pose proof (ip_nonneg n v). split; [|apply W]. eapply Rle_trans; [|apply W]. apply Rmult_le_compat_r; lra. Qed.

(** ** From quadratic forms to entries *)
Definition dv (i : nat) : rvec := fun k => if Nat.eqb i k then 1 else 0.
Lemma ip_dv n i w : (i < n)%nat -> ip n (dv i) w = w i.
Proof. intros Hi. apply (Sig_delta n w i Hi). Qed.
Lemma mv_dv n A i j : (j < n)%nat -> mv n A (dv j) i = A i j.
Proof. intros Hj. unfold mv, dv. rewrite (Sig_ext n _ (fun k => (if Nat.eqb j k then 1 else 0) * A i k)) by (intros; ring). now rewrite (Sig_delta n (fun k => A i k) j Hj). Qed.
Lemma qf_pair n A i j x : msym n A -> (i < n)%nat -> (j < n)%nat -> qf n A (fun k => dv i k + x * dv j k) = A i i + 2 * x * A i j + x * x * A j j.
Proof.
  intros S Hi Hj. unfold qf. rewrite (mv_add n A (dv i) (fun k => x * dv j k)). rewrite ip_add_l, !ip_add_r, !ip_scal_l. rewrite (mv_scal n A x (dv j)). rewrite !ip_scal_r. rewrite !ip_dv, !mv_dv by assumption. rewrite (S j i) by assumption. ring.
Qed.
Lemma ip_pair n i j x : (i < n)%nat -> (j < n)%nat -> ip n (fun k => dv i k + x * dv j k) (fun k => dv i k + x * dv j k) = 1 + 2 * x * idm i j + x * x.
Proof.
  intros Hi Hj. pose proof (qf_pair n idm i j x (msym_id n) Hi Hj) as E. unfold qf in E. rewrite mv_id in E. rewrite E. unfold idm. rewrite !Nat.eqb_refl. ring.
Qed.
Lemma entry_bound n A i j : msym n A -> (forall v, qf n A v <= ip n v v) -> (i < n)%nat -> (j < n)%nat -> Rabs (A i j - idm i j) <= ((1 - A i i) + (1 - A j j)) / 2.
Proof.
  intros S H Hi Hj. pose proof (H (fun k => dv i k + 1 * dv j k)) as H1. pose proof (H (fun k => dv i k + -1 * dv j k)) as H2. rewrite qf_pair, ip_pair in H1, H2 by assumption. apply Rabs_le. lra.
Qed.
Lemma diag_le n A c i : (i < n)%nat -> msym n A -> (forall v, c * ip n v v <= qf n A v) -> c <= A i i.
Proof. intros Hi S H. pose proof (H (fun k => dv i k + 0 * dv i k)) as H1. rewrite qf_pair, ip_pair in H1 by assumption. lra. Qed.
Lemma maxdiff_within n rho A e : within n rho A -> is_maxdiff n A idm e -> e <= rho.
Proof.
  intros (S & W) (_ & i & j & Hi & Hj & <-). eapply Rle_trans; [apply (entry_bound n); auto; intros v; apply W|]. pose proof (diag_le n A (1 - rho) i Hi S (fun v => proj1 (W v))). pose proof (diag_le n A (1 - rho) j Hj S (fun v => proj1 (W v))). lra.
Qed.
Lemma maxdiff_mono n A A' e e' : msym n A -> msym n A' -> (forall v, qf n A v <= qf n A' v <= ip n v v) -> is_maxdiff n A idm e -> is_maxdiff n A' idm e' -> e' <= e.
Proof.
  intros S S' W (H1 & _) (_ & i & j & Hi & Hj & <-). eapply Rle_trans; [apply (entry_bound n); auto; intros v; apply W|].
  assert (D : forall i, (i < n)%nat -> A i i <= A' i i). { intros k Hk. destruct (W (fun a => dv k a + 0 * dv k a)) as (B & _). rewrite !qf_pair in B by assumption. lra. }
  assert (B : forall i, (i < n)%nat -> 1 - A i i <= e). { intros k Hk. pose proof (H1 k k Hk Hk) as B. unfold idm in B. rewrite Nat.eqb_refl in B. rewrite Rabs_minus_sym in B. pose proof (Rle_abs (1 - A k k)). lra. }
  pose proof (D i Hi). pose proof (D j Hj). pose proof (B i Hi). pose proof (B j Hj). lra.
Qed.

(** ** The whole iteration *)
Section Iterate.
  Variables (n : nat) (p : Z) (q : nat) (M0 : rmat) (m : R).
  Hypotheses (Hq : Z.of_nat q = p) (Hq0 : (0 < q)%nat) (S0 : msym n M0) (Hm : 0 <= m <= 1) (H0 : forall v, m * ip n v v <= qf n M0 v <= (INR q + 1) / 2 * ip n v v) (Hev : q = 1%nat \/ exists h, q = (2 * h)%nat).
  Let mu := m / 2 ^ q.
  Lemma mu_range : 0 <= mu <= 1.
  Proof.
    unfold mu. assert (H : 1 <= 2 ^ q) by (apply pow_R1_Rle; lra). assert (0 < / 2 ^ q) by (apply Rinv_0_lt_compat; lra). assert (/ 2 ^ q <= 1) by (rewrite <- Rinv_1; apply Rinv_le_contravar; lra). unfold Rdiv. nra.
  Qed.
  Lemma iter_within k : within n ((1 - mu) ^ (2 ^ k)) (iterM n p q M0 (S k)).
  Proof.
    pose proof mu_range as R. induction k as [|k IH]; [cbn [iterM Nat.pow]; rewrite pow_1; now apply stepM_first|].
    assert (Hr : 0 <= (1 - mu) ^ (2 ^ k) <= 1) by (set (a := (2 ^ k)%nat); clearbody a; clear -R; induction a as [|a IH]; cbn [pow]; nra).
    cbn [iterM]. destruct (stepM_square n p q Hq Hq0 (iterM n p q M0 (S k)) (proj1 IH) _ Hr IH) as (W & _). replace (2 ^ S k)%nat with (2 ^ k + 2 ^ k)%nat by (cbn; lia). rewrite pow_add. exact W.
  Qed.
  Lemma iter_mono k v : qf n (iterM n p q M0 (S k)) v <= qf n (iterM n p q M0 (S (S k))) v <= ip n v v.
  Proof.
    pose proof mu_range as R. pose proof (iter_within k) as IH. assert (Hr : 0 <= (1 - mu) ^ (2 ^ k) <= 1) by (set (a := (2 ^ k)%nat); clearbody a; clear -R; induction a as [|a IH]; cbn [pow]; nra).
    destruct (stepM_square n p q Hq Hq0 (iterM n p q M0 (S k)) (proj1 IH) _ Hr IH) as (W & X). split; [apply X|]. apply (proj2 W).
  Qed.
  Lemma first_mono : (forall v, qf n M0 v <= ip n v v) -> forall v, qf n M0 v <= qf n (iterM n p q M0 1) v <= ip n v v.
  Proof.
    intros H v. assert (W : within n (1 - m) M0). { split; [exact S0|]. intros w. pose proof (H0 w). pose proof (H w). split; lra. }
    destruct (stepM_square n p q Hq Hq0 M0 S0 (1 - m) ltac:(lra) W) as (W' & X). split; [apply X|]. apply (proj2 W').
  Qed.
End Iterate.

(** ** Cauchy-Schwarz: the largest value of the form is at most the Frobenius norm *)
Lemma form_fro n A v : qf n A v <= fro n A * ip n v v.
Proof.
  set (a := ip n v v). assert (Ha : 0 <= a) by apply ip_nonneg. set (f := Sig n (fun i => Sig n (fun j => A i j * A i j))). assert (Hf : 0 <= f) by (apply Sig_nonneg; intros; apply Sig_nonneg; intros; apply Rle_0_sqr).
  assert (H1 : ip n (mv n A v) (mv n A v) <= f * a).
  { unfold f. rewrite <- Sig_scal_r. apply Sig_le. intros i _. apply (ip_cs n (fun j => A i j) v). }
  pose proof (ip_cs n v (mv n A v)) as H2. fold a in H2. change (ip n v (mv n A v)) with (qf n A v) in H2.
  assert (H3 : qf n A v * qf n A v <= (sqrt f * a) * (sqrt f * a)). { replace (sqrt f * a * (sqrt f * a)) with (sqrt f * sqrt f * (a * a)) by ring. rewrite sqrt_sqrt by exact Hf. eapply Rle_trans; [exact H2|]. nra. }
  assert (H4 : 0 <= sqrt f * a) by (apply Rmult_le_pos; [apply sqrt_pos|exact Ha]). change (fro n A) with (sqrt f).
  destruct (Rle_lt_dec (qf n A v) (sqrt f * a)) as [|H5]; [assumption|]. exfalso. nra.
Qed.
Lemma qf_damped n A r v : qf n (damped A r) v = qf n A v + r * ip n v v.
Proof.
  unfold qf, damped. assert (E : veq n (mv n (madd A (mscal r idm)) v) (fun k => mv n A v k + r * v k)).
  { intros i Hi. unfold mv, madd, mscal. rewrite (Sig_ext n _ (fun j => A i j * v j + r * (idm i j * v j))) by (intros; ring). rewrite Sig_add, Sig_scal. unfold idm. now rewrite (Sig_delta n v i Hi). }
  rewrite E, ip_add_r, ip_scal_r. reflexivity.
Qed.
Lemma qf_scal_r n A c v : qf n (fun i j => A i j * c) v = c * qf n A v.
Proof.
  unfold qf. assert (E : veq n (mv n (fun i j => A i j * c) v) (fun k => c * mv n A v k)). { intros i _. unfold mv. rewrite <- Sig_scal. apply Sig_ext. intros; ring. }
  rewrite E, ip_scal_r. reflexivity.
Qed.

(** The contraction of the iteration: with mu = newton_rate n p B r the error after k + 1 steps is at most (1 - mu)^(2^k). *)
Definition newton_rate (n : nat) (p : Z) (B : rmat) (r : R) : R := Rmin 1 ((1 + IZR p) * r / (2 * fro n B)) / 2 ^ Z.to_nat p.

(*@ C54_converges : For p = 1, 2, 4 or 8, every symmetric positive semidefinite n x n matrix A (n >= 2), start vector v <> 0, positive ridge_epsilon, tolerance >= 0 and iteration bound k + 1: if (1 - mu)^(2^k) is at most the tolerance, where mu = min(1, (1 + p) ridge / (2 |B|_F)) / 2^p, then the reported error is within the tolerance and bounds every entry of H^p B - I, unless the very first step raised the error by 20 percent or more, in which case the returned matrix is the initial multiple of the identity.  The second case is impossible when (1 + p) <v, B v> <= 2 |B|_F <v, v> for all v (always so for p = 1). *)
Lemma root_converges : forall `{P : Platform} (draw : nat -> F) (matrix : tensor) (d : fdt) (n : nat) (A : rmat) (v : rvec) (p : Z) (k : nat) (eps tol : R),
  is_mat matrix d n A -> (2 <= n)%nat -> msym n A -> mpsd n A -> (forall i, draw i = Fin (v i)) -> ~ vzero n v -> In p [1; 2; 4; 8]%Z -> 0 < eps -> 0 <= tol ->
  exists (out : tensor) (s : R) (h : tensor) (H : rmat) (e r : R),
  power_iteration draw matrix 100 (Fin (1 / 1000000)) = Ok (out, Fin s) /\ 0 <= s /\
  matrix_inverse_pth_root draw matrix p (Z.of_nat (S k)) (Fin eps) (Fin tol) = Ok (h, Fin e) /\ is_mat h d n H /\
  let B := damped A (ridge_of eps s) in
  is_residual n (Z.to_nat p) H B r /\ r <= e /\
  ((1 - newton_rate n p B (ridge_of eps s)) ^ (2 ^ k) <= tol ->
     (e <= tol \/ meq n H (startH n p B) /\ r * (12 / 10) <= e) /\
     (p = 1%Z \/ (forall w, (1 + IZR p) * ip n w (mv n B w) <= 2 * fro n B * ip n w w) -> e <= tol)).
Proof.
  intros P draw matrix d n A v p k eps tol HA Hn HS HQ Hd Hv Hp Heps Htol. destruct (pow_branch p Hp) as [Hq Hp0].
  destruct (max_ev_val draw matrix d n A v (1 / 1000000) HA Hd HS Hv ltac:(lra)) as (out & s & Es & Hs). specialize (Hs HQ).
  set (rg := ridge_of eps s). assert (Hrg : 0 < rg) by now apply ridge_pos. set (B := damped A rg). assert (HB : 0 < fro n B) by (apply damped_fro; [lia|exact HQ|exact Hrg]).
  destruct (root_general draw matrix d n A v s p (Z.of_nat (S k)) eps tol out HA Hn Hp0 ltac:(lia) Hd Es HB) as (j & h & run & E & Eh & Hj & Hh & HE & Hcase & Hgo). fold rg in Hh, HE, Hcase. fold B in Hh, HE, Hcase. rewrite Hq in Hh, HE, Hcase. clear Hq. set (q := Z.to_nat p) in *.
  assert (HpR : 1 <= IZR p) by (apply IZR_le; lia). assert (Hz : 0 < zof n p B) by (unfold zof; apply Rdiv_lt_0_compat; lra).
  destruct (start_ok n p B Hp0 Hz) as [S1 S2]. pose proof (coupled n p q B _ _ Hp0 ltac:(lia) S1 S2) as Hinv.
  set (l := if run then j else (j - 1)%nat) in *. destruct (Hinv l) as [I1 I2].
  assert (Hr : exists r, is_maxdiff n (iterM n p q (startM n p B) l) idm r /\ (run = true /\ r = E /\ (E <= tol \/ j = S k) \/ run = false /\ (1 <= j)%nat /\ r * (12 / 10) <= E)).
  { destruct Hcase as [(-> & Hc)|(-> & Hk1 & E' & HE' & Hc)]; [exists E; split; [exact HE|]; left; intuition lia|exists E'; split; [exact HE'|]; right; auto]. }
  destruct Hr as (r & Hr & Hc). exists out, s, h, (iterH n p q (startM n p B) (startH n p B) l), E, r.
  split; [exact Es|]. split; [exact Hs|]. split; [exact Eh|]. split; [exact Hh|]. cbv zeta. fold rg. fold B. split; [exact (maxdiff_ext n _ _ _ r I1 Hr)|].
  pose proof (maxdiff_nonneg n _ _ _ Hr) as Hr0. split; [destruct Hc as [(_ & -> & _)|(_ & _ & Hc)]; lra|]. intros Hmu.
  (* the hypotheses of the iteration *)
  set (z := zof n p B) in *. set (m := Rmin 1 (z * rg)). assert (Hzr : 0 <= z * rg) by (apply Rmult_le_pos; lra).
  assert (Hm : 0 <= m <= 1) by (unfold m; split; [apply Rmin_glb; lra|apply Rmin_l]).
  assert (Emu : newton_rate n p B rg = m / 2 ^ q). { unfold newton_rate, m, q. do 2 f_equal. unfold z, zof. field. lra. } rewrite Emu in Hmu.
  assert (HqR : INR q = IZR p) by (unfold q; rewrite INR_IZR_INZ, Z2Nat.id by lia; reflexivity).
  assert (SB : msym n B). { intros a b Ha Hb. unfold B, damped, madd, mscal, idm. rewrite (HS a b) by assumption. now rewrite Nat.eqb_sym. }
  assert (S0 : msym n (startM n p B)) by (intros a b Ha Hb; unfold startM; now rewrite (SB a b)).
  assert (QB : forall w, qf n (startM n p B) w = z * qf n B w) by (intros w; apply qf_scal_r).
  assert (LB : forall w, m * ip n w w <= qf n (startM n p B) w).
  { intros w. rewrite QB. unfold B. rewrite qf_damped. pose proof (HQ w) as Q1. fold (qf n A w) in Q1. pose proof (ip_nonneg n w) as Q2. apply Rle_trans with (z * rg * ip n w w); [apply Rmult_le_compat_r; [exact Q2|apply Rmin_r]|]. rewrite Rmult_assoc. apply Rmult_le_compat_l; lra. }
  assert (Ezf : z * fro n B = (INR q + 1) / 2) by (unfold z, zof; rewrite HqR; field; lra).
  assert (UB : forall w, qf n (startM n p B) w <= (INR q + 1) / 2 * ip n w w). { intros w. rewrite QB, <- Ezf, Rmult_assoc. apply Rmult_le_compat_l; [lra|apply form_fro]. }
  assert (Hev : q = 1%nat \/ exists a, q = (2 * a)%nat). { unfold q. destruct Hp as [<-|[<-|[<-|[<-|[]]]]]; [left; reflexivity|right; exists 1%nat; reflexivity|right; exists 2%nat; reflexivity|right; exists 4%nat; reflexivity]. }
  assert (Hq0 : (0 < q)%nat) by lia. assert (Hqz : Z.of_nat q = p) by lia. set (M0 := startM n p B) in *.
  pose proof (iter_within n p q M0 m Hqz Hq0 S0 Hm (fun w => conj (LB w) (UB w)) Hev) as W.
  pose proof (iter_mono n p q M0 m Hqz Hq0 S0 Hm (fun w => conj (LB w) (UB w)) Hev) as Mo.
  assert (Hlate : forall a e e', is_maxdiff n (iterM n p q M0 (S a)) idm e' -> is_maxdiff n (iterM n p q M0 (S (S a))) idm e -> e <= e').
  { intros a e e' H1 H2. apply (maxdiff_mono n _ _ e' e (proj1 (W a)) (proj1 (W (S a))) (Mo a) H1 H2). }
  destruct Hc as [(Er & -> & Hc)|(Er & Hj1 & Hc)].
  { assert (HEt : E <= tol). { destruct Hc as [Hc|Hc]; [exact Hc|]. subst j. eapply Rle_trans; [|exact Hmu]. exact (maxdiff_within n _ _ E (W k) HE). } split; [now left|intros _; exact HEt]. }
  unfold l in *. rewrite Er in *. destruct j as [|j]; [lia|]. cbn [Nat.sub] in *. rewrite Nat.sub_0_r in *. destruct j as [|j].
  - split; [right; split; [reflexivity|exact Hc]|]. intros HC.
    assert (HB1 : forall w, qf n M0 w <= ip n w w).
    { intros w. pose proof (ip_nonneg n w) as Q2. destruct HC as [E1|HC]; [eapply Rle_trans; [apply UB|]; rewrite HqR, E1; lra|]. rewrite QB. specialize (HC w). fold (qf n B w) in HC. unfold z, zof. apply Rmult_le_reg_r with (2 * fro n B); [lra|]. replace ((1 + IZR p) / (2 * fro n B) * qf n B w * (2 * fro n B)) with ((1 + IZR p) * qf n B w) by (field; lra). lra. }
    pose proof (first_mono n p q M0 m Hqz Hq0 S0 Hm (fun w => conj (LB w) (UB w)) HB1) as F1.
    pose proof (maxdiff_mono n _ _ r E S0 (proj1 (W 0%nat)) F1 Hr HE) as F2. lra.
  - pose proof (Hlate j E r Hr HE) as F2. assert (E <= tol) by lra. split; [now left|intros _; assumption].
Qed.

Lemma pow_exp mu a : 0 <= mu <= 1 -> (1 - mu) ^ a <= exp (- (mu * INR a)).
Proof.
  intros H. induction a as [|a IH]; [cbn; rewrite Rmult_0_r, Ropp_0, exp_0; lra|]. rewrite S_INR. replace (- (mu * (INR a + 1))) with (- mu + - (mu * INR a)) by ring. rewrite exp_plus. cbn [pow].
  assert (1 - mu <= exp (- mu)) by (pose proof (exp_ineq1_le (- mu)); lra). apply Rmult_le_compat; [lra|apply pow_le; lra|assumption|exact IH].
Qed.
Lemma exp_m20 x : 20 <= x -> exp (- x) <= 1 / 1000000.
Proof.
  intros H. assert (H1 : 2 ^ 20 <= exp x).
  { apply Rle_trans with (exp (1 * 20)); [|destruct H as [H|<-]; [left; apply exp_increasing; lra|right; f_equal; ring]]. replace (1 * 20) with (INR 20 * 1) by (cbn; ring).
    assert (G : forall a, 2 ^ a <= exp (INR a * 1)). { induction a as [|a IH]; [cbn; rewrite Rmult_0_l, exp_0; lra|]. rewrite S_INR. replace ((INR a + 1) * 1) with (1 + INR a * 1) by ring. rewrite exp_plus. cbn [pow]. apply Rmult_le_compat; [lra|apply pow_le; lra|pose proof (exp_ineq1_le 1); lra|exact IH]. }
    apply G. }
  rewrite exp_Ropp. replace (1 / 1000000) with (/ 1000000) by lra. apply Rinv_le_contravar; [lra|]. cbn [pow] in H1. lra.
Qed.
Lemma pow99 : 63 * 10 ^ 28 <= INR (2 ^ 99).
Proof. rewrite pow_INR. change (INR 2) with 2. replace 2 with (IZR 2) by reflexivity. rewrite pow_IZR. replace 10 with (IZR 10) by reflexivity. rewrite pow_IZR, <- mult_IZR. apply IZR_le. vm_compute. discriminate. Qed.

(*@ C54_defaults : with the default arguments (100 steps, ridge_epsilon = 1e-6, error_tolerance = 1e-6) this covers every symmetric positive semidefinite matrix whose damped version has Frobenius norm at most 10^4, however badly conditioned: all entries of H^p B - I are within 1e-6, unless the first step was abandoned. *)
Lemma root_defaults : forall `{P : Platform} (draw : nat -> F) (matrix : tensor) (d : fdt) (n : nat) (A : rmat) (v : rvec) (p : Z),
  is_mat matrix d n A -> (2 <= n)%nat -> msym n A -> mpsd n A -> (forall i, draw i = Fin (v i)) -> ~ vzero n v -> In p [1; 2; 4; 8]%Z ->
  exists (out : tensor) (s : R) (h : tensor) (H : rmat) (e r : R),
  power_iteration draw matrix 100 (Fin (1 / 1000000)) = Ok (out, Fin s) /\ 0 <= s /\
  matrix_inverse_pth_root draw matrix p 100 (Fin (1 / 1000000)) (Fin (1 / 1000000)) = Ok (h, Fin e) /\ is_mat h d n H /\
  let B := damped A (1 / 1000000 * Rmax s (1 / 10000000000000000)) in
  is_residual n (Z.to_nat p) H B r /\ r <= e /\
  (fro n B <= 10000 ->
     (e <= 1 / 1000000 \/ meq n H (startH n p B) /\ r * (12 / 10) <= e) /\
     (p = 1%Z \/ (forall w, (1 + IZR p) * ip n w (mv n B w) <= 2 * fro n B * ip n w w) -> e <= 1 / 1000000)).
Proof.
  intros P draw matrix d n A v p HA Hn HS HQ Hd Hv Hp.
  destruct (root_converges draw matrix d n A v p 99 (1 / 1000000) (1 / 1000000) HA Hn HS HQ Hd Hv Hp ltac:(lra) ltac:(lra)) as (out & s & h & H & e & r & Es & Hs & E & Hh & Hr & Hre & Hc).
  exists out, s, h, H, e, r. split; [exact Es|]. split; [exact Hs|]. split; [exact E|]. split; [exact Hh|]. cbv zeta. change (1 / 1000000 * Rmax s (1 / 10000000000000000)) with (ridge_of (1 / 1000000) s). set (rg := ridge_of (1 / 1000000) s) in *. set (B := damped A rg) in *. split; [exact Hr|]. split; [exact Hre|]. intros Hf. apply Hc. clear Hc E Hh Hr Hre.
  assert (Hrg : / 10 ^ 22 <= rg). { unfold rg, ridge_of. pose proof (Rmax_r s (1 / 10000000000000000)). replace (/ 10 ^ 22) with (1 / 1000000 * (1 / 10000000000000000)) by (cbn [pow]; field). apply Rmult_le_compat_l; lra. }
  assert (H22 : 0 < / 10 ^ 22) by (apply Rinv_0_lt_compat, pow_lt; lra). assert (HB : 0 < fro n B) by (apply damped_fro; [lia|exact HQ|lra]).
  set (mu := newton_rate n p B rg).
  assert (Hp8 : (1 <= p <= 8)%Z) by (destruct Hp as [<-|[<-|[<-|[<-|[]]]]]; lia). assert (HpR : 1 <= IZR p) by (apply IZR_le; lia).
  assert (H2 : 1 <= 2 ^ Z.to_nat p <= 256). { split; [apply pow_R1_Rle; lra|]. replace 256 with (2 ^ 8) by (cbn [pow]; lra). apply Rle_pow; [lra|lia]. }
  assert (Hq : / 10 ^ 26 <= (1 + IZR p) * rg / (2 * fro n B)).
  { apply Rmult_le_reg_r with (2 * fro n B); [lra|]. replace ((1 + IZR p) * rg / (2 * fro n B) * (2 * fro n B)) with ((1 + IZR p) * rg) by (field; lra). apply Rle_trans with (2 * / 10 ^ 22); [|apply Rmult_le_compat; lra].
    replace (2 * / 10 ^ 22) with (/ 10 ^ 26 * (2 * 10000)) by (cbn [pow]; field). apply Rmult_le_compat_l; [left; apply Rinv_0_lt_compat, pow_lt; lra|lra]. }
  assert (Hmn : / 10 ^ 26 <= Rmin 1 ((1 + IZR p) * rg / (2 * fro n B))). { apply Rmin_glb; [|exact Hq]. rewrite <- Rinv_1. apply Rinv_le_contravar; [lra|apply pow_R1_Rle; lra]. }
  pose proof (Rmin_l 1 ((1 + IZR p) * rg / (2 * fro n B))) as Hm1. set (mn := Rmin 1 ((1 + IZR p) * rg / (2 * fro n B))) in *.
  assert (Hi : / 256 <= / 2 ^ Z.to_nat p <= 1) by (split; [apply Rinv_le_contravar; lra|rewrite <- Rinv_1; apply Rinv_le_contravar; lra]).
  assert (H26 : 0 < / 10 ^ 26) by (apply Rinv_0_lt_compat, pow_lt; lra).
  assert (Hmu : / 10 ^ 26 * / 256 <= mu <= 1). { unfold mu, newton_rate. fold mn. unfold Rdiv at 1 2. set (i := / 2 ^ Z.to_nat p) in *. clearbody i mn. revert Hmn H26. generalize (/ 10 ^ 26). intros t Hmn H26. destruct Hi as [Hi1 Hi2]. split; [apply Rmult_le_compat; lra|]. rewrite <- (Rmult_1_r 1). apply Rmult_le_compat; lra. }
  assert (Hmu0 : 0 <= mu) by (assert (0 < / 10 ^ 26 * / 256) by (apply Rmult_lt_0_compat; lra); lra).
  eapply Rle_trans; [apply pow_exp; lra|]. apply exp_m20. pose proof pow99 as H99. set (a := INR (2 ^ 99)) in *. clearbody a. apply Rle_trans with (/ 10 ^ 26 * / 256 * (63 * 10 ^ 28)); [cbn [pow]; lra|]. apply Rmult_le_compat; [apply Rmult_le_pos; lra|apply Rmult_le_pos; [lra|apply pow_le; lra]|lra|exact H99].
Qed.

(** The 2 x 2 matrix ((2, 1), (1, 2)), p = 1: the condition of the last clause holds. *)
(*@ex C54_converges_example *)
Lemma root_converges_example : forall `{P : Platform}, exists h H e r s, matrix_inverse_pth_root (fun i => if Nat.eqb i 0 then Fin 1 else Fin 0) ex_matrix 1 100 (Fin (1 / 1000000)) (Fin (1 / 1000000)) = Ok (h, Fin e) /\ is_mat h F32 2 H /\ 2 <= s <= 3 /\
  is_residual 2 1 H (damped ex_A (ridge_of (1 / 1000000) s)) r /\ r <= 1 / 1000000.
Proof.
  intros P. destruct power_example as (o1 & s1 & E1 & H1). destruct (root_defaults (fun i => if Nat.eqb i 0 then Fin 1 else Fin 0) ex_matrix F32 2 ex_A (fun i => if Nat.eqb i 0 then 1 else 0) 1 ex_is ltac:(lia) ex_sym ex_psd) as (out & s & h & H & e & r & Es & Hs & E & Hh & Hr & Hre & Hc).
  - intros i. now destruct (Nat.eqb i 0).
  - intros Z. specialize (Z 0%nat ltac:(lia)). cbn in Z. lra.
  - cbn. auto.
  - assert (s1 = s) by (pose proof (eq_trans (eq_sym E1) Es) as EE; injection EE; auto). subst s1.
    exists h, H, e, r, s. split; [exact E|]. split; [exact Hh|]. split; [exact H1|]. change (ridge_of (1 / 1000000) s) with (1 / 1000000 * Rmax s (1 / 10000000000000000)). set (rg := 1 / 1000000 * Rmax s (1 / 10000000000000000)) in *. split; [exact Hr|].
    assert (Hrg : 0 <= rg <= 1). { unfold rg. pose proof (Rmax_l s (1 / 10000000000000000)). pose proof (Rmax_lub s (1 / 10000000000000000) 100 ltac:(lra) ltac:(lra)). lra. }
    apply Rle_trans with e; [exact Hre|]. apply Hc; [|left; reflexivity]. unfold fro. rewrite !Sig2. unfold damped, ex_A, madd, mscal, idm. cbn [Nat.eqb]. rewrite <- (sqrt_square 10000) by lra. apply sqrt_le_1_alt. nra.
Qed.

(** ** A well-conditioned matrix on which the loop gives up at once *)
Definition S4 : rmat := fun i j => match i, j with 1%nat, 1%nat | 1%nat, 3%nat | 3%nat, 1%nat | 2%nat, 2%nat | 2%nat, 3%nat | 3%nat, 2%nat => - / 2 | _, _ => / 2 end.
Definition lc (a b : R) : rmat := fun i j => a * idm i j + b * S4 i j.
Ltac four i := destruct i as [|[|[|[|i]]]]; [| | | |lia].
Lemma Sig4 f : Sig 4 f = f 0%nat + f 1%nat + f 2%nat + f 3%nat.
Proof. rewrite !Sig_S. unfold Sig. cbn [seq map]. rewrite rsum_nil. ring. Qed.
Lemma lc_mm a b a' b' : meq 4 (mm 4 (lc a b) (lc a' b')) (lc (a * a' + b * b') (a * b' + b * a')).
Proof. intros i j Hi Hj. unfold mm. rewrite Sig4. unfold lc, idm. four i; four j; cbn [Nat.eqb S4]; field. Qed.
Lemma lc_id : meq 4 idm (lc 1 0).
Proof. intros i j _ _. unfold lc. ring. Qed.
Lemma lc_stepP p a b : meq 4 (stepP p (lc a b)) (lc (1 - al p + al p * a) (al p * b)).
Proof. intros i j _ _. unfold stepP, madd, mscal, lc. ring. Qed.
Definition g4 (x : R) : R := ((5 - x) / 4) ^ 4 * x.
Lemma lc_stepM a b : meq 4 (stepM 4 4 4 (lc a b)) (lc ((g4 (a + b) + g4 (a - b)) / 2) ((g4 (a + b) - g4 (a - b)) / 2)).
Proof.
  unfold stepM. rewrite lc_stepP. cbn [mpow]. rewrite lc_id, !lc_mm. intros i j _ _. unfold lc, g4, al. f_equal; (f_equal; field).
Qed.
Definition A4 : rmat := lc 1 (9 / 10).
Definition A4_tensor (d : fdt) : gt XR := mkT d [4; 4]%nat (map Fin
  [145 / 100; 45 / 100; 45 / 100; 45 / 100;  45 / 100; 55 / 100; 45 / 100; - 45 / 100;  45 / 100; 45 / 100; 55 / 100; - 45 / 100;  45 / 100; - 45 / 100; - 45 / 100; 145 / 100]).
Lemma A4_is d : is_mat (A4_tensor d) d 4 A4.
Proof. repeat split. intros i j Hi Hj. unfold A4, lc, idm. four i; four j; cbn [Nat.eqb S4 A4_tensor dat Nat.mul Nat.add map nth_error]; do 2 f_equal; field. Qed.
Lemma lc_sym a b : msym 4 (lc a b).
Proof. intros i j Hi Hj. unfold lc, idm. four i; four j; reflexivity. Qed.
Lemma A4_low w : / 10 * ip 4 w w <= qf 4 A4 w.
Proof.
  unfold qf, ip, mv. rewrite !Sig4. unfold A4, lc, idm. cbn [Nat.eqb S4]. generalize (w 0%nat), (w 1%nat), (w 2%nat), (w 3%nat). intros x y z t.
  pose proof (Rle_0_sqr (x + (x + y + z + t) / 2)) as Q0. pose proof (Rle_0_sqr (y + (x - y + z - t) / 2)) as Q1. pose proof (Rle_0_sqr (z + (x + y - z - t) / 2)) as Q2. pose proof (Rle_0_sqr (t + (x - y - z + t) / 2)) as Q3. unfold Rsqr in *.
  match goal with |- ?l <= ?r => assert (E : r - l = 9 / 20 * ((x + (x + y + z + t) / 2) * (x + (x + y + z + t) / 2) + (y + (x - y + z - t) / 2) * (y + (x - y + z - t) / 2) + (z + (x + y - z - t) / 2) * (z + (x + y - z - t) / 2) + (t + (x - y - z + t) / 2) * (t + (x - y - z + t) / 2))) by field end. lra.
Qed.
Lemma fro_lc a b : fro 4 (lc a b) = 2 * sqrt (a * a + b * b).
Proof.
  assert (E2 : sqrt (2 * 2) = 2) by (apply sqrt_square; lra). rewrite <- E2 at 1. rewrite <- sqrt_mult_alt by lra. unfold fro. f_equal. rewrite !Sig4. unfold lc, idm. cbn [Nat.eqb S4]. field.
Qed.
(** The numbers. *)
Lemma gives_up_numbers rg z : 0 <= rg <= 2 / 1000 -> 0 < z -> z * z * ((1 + rg) * (1 + rg) + 81 / 100) = 25 / 16 ->
  let u := z * (1 + rg) in let w := z * (9 / 10) in
  928 / 1000 <= z <= 9292 / 10000 /\ g4 (u + w) / 4 + 3 * g4 (u - w) / 4 <= 36 / 100.
Proof.
  intros Hr Hz E u w. assert (H1 : 928 / 1000 <= z) by nra. assert (H2 : z <= 9292 / 10000) by nra. split; [lra|].
  assert (Hp : 1763 / 1000 <= u + w <= 1768 / 1000) by (unfold u, w; nra). assert (Hm : 92 / 1000 <= u - w <= 95 / 1000) by (unfold u, w; nra). generalize dependent (u + w). generalize dependent (u - w). intros x Hx y Hy.
  assert (P4 : forall t c, 0 <= t <= c -> t ^ 4 <= c ^ 4) by (intros t c Ht; apply pow_incr; lra).
  pose proof (P4 ((5 - y) / 4) (81 / 100) ltac:(lra)) as B1. pose proof (P4 ((5 - x) / 4) (123 / 100) ltac:(lra)) as B2. unfold g4. assert (C1 : 0 <= ((5 - y) / 4) ^ 4) by (apply pow_le; lra). assert (C2 : 0 <= ((5 - x) / 4) ^ 4) by (apply pow_le; lra).
  assert (D1 : ((5 - y) / 4) ^ 4 * y <= (81 / 100) ^ 4 * (1768 / 1000)) by (apply Rmult_le_compat; lra). assert (D2 : ((5 - x) / 4) ^ 4 * x <= (123 / 100) ^ 4 * (95 / 1000)) by (apply Rmult_le_compat; lra). lra.
Qed.
Lemma A4_high w : qf 4 A4 w <= 19 / 10 * ip 4 w w.
Proof.
  unfold qf, ip, mv. rewrite !Sig4. unfold A4, lc, idm. cbn [Nat.eqb S4]. generalize (w 0%nat), (w 1%nat), (w 2%nat), (w 3%nat). intros x y z t.
  pose proof (Rle_0_sqr (x - (x + y + z + t) / 2)) as Q0. pose proof (Rle_0_sqr (y - (x - y + z - t) / 2)) as Q1. pose proof (Rle_0_sqr (z - (x + y - z - t) / 2)) as Q2. pose proof (Rle_0_sqr (t - (x - y - z + t) / 2)) as Q3. unfold Rsqr in *.
  match goal with |- ?l <= ?r => assert (E : r - l = 9 / 20 * ((x - (x + y + z + t) / 2) * (x - (x + y + z + t) / 2) + (y - (x - y + z - t) / 2) * (y - (x - y + z - t) / 2) + (z - (x + y - z - t) / 2) * (z - (x + y - z - t) / 2) + (t - (x - y - z + t) / 2) * (t - (x - y - z + t) / 2))) by field end. lra.
Qed.

(*@ C54_gives_up : the second case does occur.  For the symmetric 4 x 4 matrix I + 0.9 S, whose eigenvalues are 0.1 and 1.9, p = 4, every start vector v <> 0, every ridge_epsilon up to 1/2000, every iteration bound >= 2 and every tolerance below 0.4, the loop is abandoned at the first step: the returned matrix is a multiple of the identity, off by at least 0.4 in some entry of H^4 B - I, and the reported error (which belongs to another matrix) is at least 0.64. *)
Lemma root_gives_up : forall `{P : Platform} (draw : nat -> F) (d : fdt) (v : rvec) (N : Z) (eps tol : R),
  (forall i, draw i = Fin (v i)) -> ~ vzero 4 v -> (2 <= N)%Z -> 0 < eps <= 1 / 2000 -> tol < 4 / 10 ->
  is_mat (A4_tensor d) d 4 A4 /\ (forall w, 1 / 10 * ip 4 w w <= ip 4 w (mv 4 A4 w) <= 19 / 10 * ip 4 w w) /\
  exists (h : tensor) (c e r s : R), matrix_inverse_pth_root draw (A4_tensor d) 4 N (Fin eps) (Fin tol) = Ok (h, Fin e) /\ is_mat h d 4 (mscal c idm) /\ 0 <= s <= 19 / 10 /\
  is_residual 4 4 (mscal c idm) (damped A4 (ridge_of eps s)) r /\ 4 / 10 <= r /\ 64 / 100 <= e.
Proof.
  intros P draw d v N eps tol Hd Hv HN Heps Ht. split; [apply A4_is|]. split. { intros w. pose proof (A4_low w). pose proof (A4_high w). unfold qf in *. lra. }
  assert (HQ : mpsd 4 A4). { intros w. pose proof (A4_low w) as H. pose proof (ip_nonneg 4 w). unfold qf in H. lra. }
  assert (HAv : ~ vzero 4 (mv 4 A4 v)). { intros Z. apply Hv. apply ip_zero. pose proof (A4_low v) as H. pose proof (ip_nonneg 4 v). assert (E0 : qf 4 A4 v = 0). { unfold qf. unfold vzero in Z. rewrite Z. unfold ip. rewrite Sig4. ring. } lra. }
  destruct (power_bounds draw (A4_tensor d) d 4 A4 v 100 (1 / 1000000) (A4_is d) Hd ltac:(lia) (lc_sym _ _) HQ HAv) as (out & s & Es & Hs0 & _ & HsL). assert (Hs : 0 <= s <= 19 / 10) by (split; [exact Hs0|apply HsL, A4_high]). clear HsL.
  set (rg := ridge_of eps s). assert (Hrg : 0 < rg <= 2 / 1000). { split; [now apply ridge_pos|]. unfold rg, ridge_of. assert (H1 : Rmax s (1 / 10000000000000000) <= 19 / 10) by (apply Rmax_lub; lra). pose proof (Rmax_r s (1 / 10000000000000000)). nra. }
  set (B := damped A4 rg). assert (EB : forall i j, B i j = lc (1 + rg) (9 / 10) i j) by (intros i j; unfold B, damped, A4, lc, madd, mscal; ring).
  assert (Hf : fro 4 B = 2 * sqrt ((1 + rg) * (1 + rg) + 81 / 100)). { replace (81 / 100) with (9 / 10 * (9 / 10)) by lra. rewrite <- fro_lc. unfold fro. f_equal. apply Sig_ext. intros i _. apply Sig_ext. intros j _. now rewrite EB. }
  set (f := (1 + rg) * (1 + rg) + 81 / 100) in *. assert (Hf0 : 0 < f) by (unfold f; nra). pose proof (sqrt_lt_R0 f Hf0) as Hsf. assert (HB : 0 < fro 4 B) by (rewrite Hf; lra).
  destruct (root_general draw (A4_tensor d) d 4 A4 v s 4 N eps tol out (A4_is d) ltac:(lia) ltac:(lia) ltac:(lia) Hd Es HB) as (k & h & run & E & Eh & Hk & Hh & HE & Hcase & Hgo). fold rg in Hh, HE, Hcase, Hgo. fold B in Hh, HE, Hcase, Hgo.
  assert (Eq : pow_of (branch 4) = 4%nat) by (destruct (pow_branch 4 ltac:(cbn; auto)) as [Eq _]; rewrite Eq; reflexivity). rewrite Eq in *. clear Eq.
  set (z := zof 4 4 B). assert (Hz : 0 < z) by (unfold z, zof; apply Rdiv_lt_0_compat; lra).
  assert (Ez : z * z * f = 25 / 16). { unfold z, zof. rewrite Hf. replace f with (sqrt f * sqrt f) at 3 by (apply sqrt_sqrt; lra). field. lra. }
  destruct (gives_up_numbers rg z ltac:(lra) Hz Ez) as (Hzr & Hg). cbv zeta in Hg. set (u := z * (1 + rg)) in *. set (w := z * (9 / 10)) in *.
  set (M0 := startM 4 4 B) in *. assert (EM0 : meq 4 M0 (lc u w)) by (intros i j _ _; unfold M0, startM; fold z; rewrite EB; unfold lc, u, w; ring).
  assert (EM1 : meq 4 (iterM 4 4 4 M0 1) (lc ((g4 (u + w) + g4 (u - w)) / 2) ((g4 (u + w) - g4 (u - w)) / 2))).
  { cbn [iterM]. rewrite <- lc_stepM. unfold stepM, stepP. now rewrite EM0. }
  assert (Hu : 928 / 1000 <= u <= 935 / 1000) by (unfold u; nra). assert (Hw : 835 / 1000 <= w <= 8363 / 10000) by (unfold w; lra).
  assert (B0 : forall e, is_maxdiff 4 M0 idm e -> 4 / 10 <= e <= 4902 / 10000).
  { intros e He. apply (maxdiff_ext 4 _ _ _ e EM0) in He. destruct He as (G1 & i & j & Hi & Hj & G2). split.
    - eapply Rle_trans; [|apply (G1 0%nat 1%nat); lia]. unfold lc, idm. cbn [Nat.eqb S4]. rewrite Rabs_right; lra.
    - rewrite <- G2. unfold lc, idm. four i; four j; cbn [Nat.eqb S4]; apply Rabs_le; lra. }
  assert (B1 : forall e, is_maxdiff 4 (iterM 4 4 4 M0 1) idm e -> 64 / 100 <= e).
  { intros e He. apply (maxdiff_ext 4 _ _ _ e EM1) in He. destruct He as (G1 & _). eapply Rle_trans; [|apply (G1 1%nat 1%nat); lia]. rewrite Rabs_minus_sym. eapply Rle_trans; [|apply Rle_abs]. unfold lc, idm. cbn [Nat.eqb S4]. lra. }
  (* exactly one step was made *)
  assert (Hk1 : k = 1%nat).
  { destruct k as [|[|k]]; [|reflexivity|].
    - exfalso. cbn [iterM] in HE. pose proof (B0 E HE) as G. destruct Hcase as [(_ & [H|H])|(_ & H & _)]; [lra|lia|lia].
    - exfalso. destruct (Hgo 1%nat ltac:(lia)) as (E1 & HE1 & _ & E0 & HE0 & H). cbn [iterM] in HE0. pose proof (B0 E0 HE0). pose proof (B1 E1 HE1). lra. }
  subst k. pose proof (B1 E HE) as G1. destruct Hcase as [(_ & [H|H])|(Er & _ & r & Hr & H)]; [exfalso; lra|exfalso; lia|]. subst run. cbn [Nat.sub iterH iterM] in *. pose proof (B0 r Hr) as G0.
  set (c := Rpower z (1 / 4)). assert (Hstart : forall i j, startH 4 4 B i j = mscal c idm i j) by (intros i j; unfold startH, mscal; fold z; unfold c; ring).
  exists h, c, E, r, s. split; [exact Eh|]. split. { revert Hh. apply mat_ext. intros i j _ _. apply Hstart. } split; [exact Hs|]. split; [|split; [lra|exact G1]].
  destruct (start_ok 4 4 B ltac:(lia) Hz) as [S1 _]. change (Z.to_nat 4) with 4%nat in S1. fold M0 in S1. unfold is_residual. fold rg. fold B. apply (maxdiff_ext 4 _ _ _ r) with (2 := Hr). rewrite S1. assert (Em : meq 4 (startH 4 4 B) (mscal c idm)) by (intros i j _ _; apply Hstart). now rewrite Em.
Qed.
