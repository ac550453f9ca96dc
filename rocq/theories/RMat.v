(** Real vectors and matrices of size [n], as functions on indices (only the entries below [n]
    matter).  Independent of the model of the code. *)
From Verif Require Export Spec Norms.
From Coq Require Import Setoid Morphisms.

Definition Sig (n : nat) (f : nat -> R) : R := rsum (map f (seq 0 n)).
Definition rvec := nat -> R.
Definition rmat := nat -> nat -> R.
(** Matrix times vector, matrix product, inner product, identity, power, transpose symmetry. *)
Definition mv (n : nat) (A : rmat) (v : rvec) : rvec := fun i => Sig n (fun j => A i j * v j).
Definition mm (n : nat) (A B : rmat) : rmat := fun i j => Sig n (fun k => A i k * B k j).
Definition ip (n : nat) (u v : rvec) : R := Sig n (fun i => u i * v i).
Definition idm : rmat := fun i j => if Nat.eqb i j then 1 else 0.
Definition mscal (c : R) (A : rmat) : rmat := fun i j => c * A i j.
Definition madd (A B : rmat) : rmat := fun i j => A i j + B i j.
Fixpoint mpow (n : nat) (A : rmat) (k : nat) : rmat := match k with O => idm | S k => mm n A (mpow n A k) end.
Definition vnorm (n : nat) (v : rvec) : R := sqrt (ip n v v).
Definition msym (n : nat) (A : rmat) : Prop := forall i j, (i < n)%nat -> (j < n)%nat -> A i j = A j i.
Definition mpsd (n : nat) (A : rmat) : Prop := forall v, 0 <= ip n v (mv n A v).
Definition meq (n : nat) (A B : rmat) : Prop := forall i j, (i < n)%nat -> (j < n)%nat -> A i j = B i j.
Definition veq (n : nat) (u v : rvec) : Prop := forall i, (i < n)%nat -> u i = v i.
Definition vzero (n : nat) (v : rvec) : Prop := veq n v (fun _ => 0).
(** Largest entry of |A - B|. *)
Definition is_maxdiff (n : nat) (A B : rmat) (e : R) : Prop :=
  (forall i j, (i < n)%nat -> (j < n)%nat -> Rabs (A i j - B i j) <= e) /\
  (exists i j, (i < n)%nat /\ (j < n)%nat /\ Rabs (A i j - B i j) = e).

Lemma In_seq0 n i : In i (seq 0 n) <-> (i < n)%nat.
Proof. rewrite in_seq. lia. Qed.
Lemma Sig_ext n f g : (forall i, (i < n)%nat -> f i = g i) -> Sig n f = Sig n g.
Proof. intros H. apply rsum_map_ext. intros i Hi. apply H. now apply In_seq0. Qed.
Lemma Sig_scal n c f : Sig n (fun i => c * f i) = c * Sig n f.
Proof. apply rsum_map_scal. Qed.
Lemma Sig_scal_r n c f : Sig n (fun i => f i * c) = Sig n f * c.
Proof. rewrite Rmult_comm, <- Sig_scal. apply Sig_ext. intros; ring. Qed.
Lemma Sig_add n f g : Sig n (fun i => f i + g i) = Sig n f + Sig n g.
Proof. apply rsum_map_add. Qed.
Lemma Sig_zero n : Sig n (fun _ => 0) = 0.
Proof. unfold Sig. rewrite rsum_map_const. ring. Qed.
Lemma Sig_S n f : Sig (S n) f = Sig n f + f n.
Proof. unfold Sig. rewrite seq_S, map_app, rsum_app. cbn [map]. rewrite rsum_cons, rsum_nil. cbn [Nat.add]. lra. Qed.
Lemma Sig_nonneg n f : (forall i, (i < n)%nat -> 0 <= f i) -> 0 <= Sig n f.
Proof. intros H. rewrite <- (Sig_zero n). apply rsum_map_le. intros i Hi. apply H. now apply In_seq0. Qed.
Lemma Sig_swap n m f : Sig n (fun i => Sig m (fun j => f i j)) = Sig m (fun j => Sig n (fun i => f i j)).
Proof.
  induction n as [|n IH].
  - unfold Sig at 1. cbn [seq map]. rewrite rsum_nil. symmetry. etransitivity; [apply Sig_ext|apply Sig_zero]. reflexivity.
  - rewrite Sig_S, IH, <- Sig_add. apply Sig_ext. intros j _. now rewrite Sig_S.
Qed.
Lemma Sig_delta n f i : (i < n)%nat -> Sig n (fun j => (if Nat.eqb i j then 1 else 0) * f j) = f i.
Proof.
  induction n as [|n IH]; intros H; [lia|]. rewrite Sig_S. destruct (Nat.eqb_spec i n) as [->|N].
  - rewrite (Sig_ext n _ (fun _ => 0)); [rewrite Sig_zero; ring|]. intros j Hj. destruct (Nat.eqb_spec n j); [lia|ring].
  - rewrite IH by lia. ring.
Qed.

#[export] Instance meq_equiv n : Equivalence (meq n).
Proof.
  split.
  - intros A i j _ _. reflexivity.
  - intros A B H i j Hi Hj. symmetry. now apply H.
  - intros A B C H H' i j Hi Hj. now rewrite H, H' by assumption.
Qed.
#[export] Instance veq_equiv n : Equivalence (veq n).
Proof.
  split.
  - intros A i _. reflexivity.
  - intros A B H i Hi. symmetry. now apply H.
  - intros A B C H H' i Hi. now rewrite H, H' by assumption.
Qed.
#[export] Instance mm_proper n : Proper (meq n ==> meq n ==> meq n) (mm n).
Proof. intros A A' HA B B' HB i j Hi Hj. apply Sig_ext. intros k Hk. now rewrite HA, HB by assumption. Qed.
#[export] Instance mv_proper n : Proper (meq n ==> veq n ==> veq n) (mv n).
Proof. intros A A' HA B B' HB i Hi. apply Sig_ext. intros k Hk. now rewrite HA, HB by assumption. Qed.
#[export] Instance ip_proper n : Proper (veq n ==> veq n ==> eq) (ip n).
Proof. intros A A' HA B B' HB. apply Sig_ext. intros k Hk. now rewrite HA, HB by assumption. Qed.
#[export] Instance vnorm_proper n : Proper (veq n ==> eq) (vnorm n).
Proof. intros A A' HA. unfold vnorm. now rewrite HA. Qed.
#[export] Instance mscal_proper n : Proper (eq ==> meq n ==> meq n) mscal.
Proof. intros c c' <- A A' HA i j Hi Hj. unfold mscal. now rewrite HA. Qed.
#[export] Instance madd_proper n : Proper (meq n ==> meq n ==> meq n) madd.
Proof. intros A A' HA B B' HB i j Hi Hj. unfold madd. now rewrite HA, HB. Qed.
#[export] Instance mpow_proper n : Proper (meq n ==> eq ==> meq n) (mpow n).
Proof. intros A A' HA k k' <-. induction k; cbn; [reflexivity|]. now rewrite IHk, HA. Qed.

Section Ring.
  Variable n : nat.
  Lemma mm_assoc A B C : meq n (mm n A (mm n B C)) (mm n (mm n A B) C).
  Proof.
    intros i j Hi Hj. unfold mm.
    transitivity (Sig n (fun k => Sig n (fun l => A i k * B k l * C l j))).
    { apply Sig_ext. intros k _. rewrite <- Sig_scal. apply Sig_ext. intros; ring. }
    rewrite Sig_swap. apply Sig_ext. intros l _. rewrite <- Sig_scal_r. reflexivity.
  Qed.
  Lemma mm_id_l A : meq n (mm n idm A) A.
  Proof. intros i j Hi Hj. unfold mm, idm. apply (Sig_delta n (fun k => A k j) i Hi). Qed.
  Lemma mm_id_r A : meq n (mm n A idm) A.
  Proof.
    intros i j Hi Hj. unfold mm, idm. rewrite <- (Sig_delta n (fun k => A i k) j Hj). apply Sig_ext. intros k _.
    rewrite Nat.eqb_sym. ring.
  Qed.
  Lemma mm_scal_l c A B : meq n (mm n (mscal c A) B) (mscal c (mm n A B)).
  Proof. intros i j Hi Hj. unfold mm, mscal. rewrite <- Sig_scal. apply Sig_ext. intros; ring. Qed.
  Lemma mm_scal_r c A B : meq n (mm n A (mscal c B)) (mscal c (mm n A B)).
  Proof. intros i j Hi Hj. unfold mm, mscal. rewrite <- Sig_scal. apply Sig_ext. intros; ring. Qed.
  Lemma mm_add_l A B C : meq n (mm n (madd A B) C) (madd (mm n A C) (mm n B C)).
  Proof. intros i j Hi Hj. unfold mm, madd. rewrite <- Sig_add. apply Sig_ext. intros; ring. Qed.
  Lemma mm_add_r A B C : meq n (mm n C (madd A B)) (madd (mm n C A) (mm n C B)).
  Proof. intros i j Hi Hj. unfold mm, madd. rewrite <- Sig_add. apply Sig_ext. intros; ring. Qed.
  Lemma mpow_1 A : meq n (mpow n A 1) A.
  Proof. cbn. apply mm_id_r. Qed.
  Lemma mpow_add A k l : meq n (mpow n A (k + l)) (mm n (mpow n A k) (mpow n A l)).
  Proof. induction k as [|k IH]; cbn; [now rewrite mm_id_l|]. now rewrite IH, mm_assoc. Qed.
  Lemma mpow_2 A : meq n (mm n A A) (mpow n A 2).
  Proof. rewrite (mpow_add A 1 1), mpow_1. reflexivity. Qed.
  Lemma mpow_double A k : meq n (mm n (mpow n A k) (mpow n A k)) (mpow n A (k + k)).
  Proof. now rewrite mpow_add. Qed.
  (** Commuting matrices. *)
  Definition comm A B := meq n (mm n A B) (mm n B A).
  Lemma comm_sym A B : comm A B -> comm B A.
  Proof. unfold comm. intros H. now rewrite H. Qed.
  Lemma comm_id A : comm A idm.
  Proof. unfold comm. now rewrite mm_id_l, mm_id_r. Qed.
  Lemma comm_refl A : comm A A. Proof. unfold comm. reflexivity. Qed.
  Lemma comm_mm A B C : comm A B -> comm A C -> comm A (mm n B C).
  Proof. unfold comm. intros H1 H2. now rewrite mm_assoc, H1, <- mm_assoc, H2, mm_assoc. Qed.
  Lemma comm_pow A B k : comm A B -> comm A (mpow n B k).
  Proof. intros H. induction k; cbn; [apply comm_id|now apply comm_mm]. Qed.
  Lemma comm_scal A c B : comm A B -> comm A (mscal c B).
  Proof. unfold comm. intros H. now rewrite mm_scal_l, mm_scal_r, H. Qed.
  Lemma comm_add A B C : comm A B -> comm A C -> comm A (madd B C).
  Proof. unfold comm. intros H1 H2. now rewrite mm_add_l, mm_add_r, H1, H2. Qed.
  Lemma comm_eq A B B' : meq n B B' -> comm A B -> comm A B'.
  Proof. unfold comm. intros E H. now rewrite <- E. Qed.
  Lemma mpow_mm A B k : comm A B -> meq n (mpow n (mm n A B) k) (mm n (mpow n A k) (mpow n B k)).
  Proof.
    intros H. induction k as [|k IH]; cbn; [now rewrite mm_id_l|]. rewrite IH.
    rewrite <- !mm_assoc. apply mm_proper; [reflexivity|]. rewrite !mm_assoc. apply mm_proper; [|reflexivity].
    apply comm_pow, comm_sym, H.
  Qed.
  Lemma mpow_scal_id c k : meq n (mpow n (mscal c idm) k) (mscal (c ^ k) idm).
  Proof.
    induction k as [|k IH]; cbn.
    - intros i j _ _. unfold mscal. ring.
    - rewrite IH, mm_scal_l, mm_id_l. intros i j _ _. unfold mscal. ring.
  Qed.
End Ring.

Section Vec.
  Variable n : nat.
  Lemma ip_comm u v : ip n u v = ip n v u.
  Proof. apply Sig_ext. intros; ring. Qed.
  Lemma ip_scal_l c u v : ip n (fun i => c * u i) v = c * ip n u v.
  Proof. unfold ip. rewrite <- Sig_scal. apply Sig_ext. intros; ring. Qed.
  Lemma ip_scal_r c u v : ip n u (fun i => c * v i) = c * ip n u v.
  Proof. unfold ip. rewrite <- Sig_scal. apply Sig_ext. intros; ring. Qed.
  Lemma ip_add_l u w v : ip n (fun i => u i + w i) v = ip n u v + ip n w v.
  Proof. unfold ip. rewrite <- Sig_add. apply Sig_ext. intros; ring. Qed.
  Lemma ip_add_r u w v : ip n v (fun i => u i + w i) = ip n v u + ip n v w.
  Proof. unfold ip. rewrite <- Sig_add. apply Sig_ext. intros; ring. Qed.
  Lemma ip_nonneg v : 0 <= ip n v v.
  Proof. apply Sig_nonneg. intros; nra. Qed.
  Lemma ip_sumsq v : ip n v v = sumsq (map v (seq 0 n)).
  Proof. unfold ip, Sig, sumsq. now rewrite map_map. Qed.
  Lemma vnorm_norm2 v : vnorm n v = norm2 (map v (seq 0 n)).
  Proof. unfold vnorm. now rewrite ip_sumsq. Qed.
  Lemma ip_zero v : ip n v v = 0 <-> vzero n v.
  Proof.
    rewrite ip_sumsq, sumsq_0, Forall_map, Forall_forall. unfold vzero, veq.
    split; intros H i Hi; apply H; now apply In_seq0.
  Qed.
  Lemma vnorm_sq v : vnorm n v * vnorm n v = ip n v v.
  Proof. apply sqrt_sqrt, ip_nonneg. Qed.
  Lemma vnorm_nonneg v : 0 <= vnorm n v.
  Proof. apply sqrt_pos. Qed.
  Lemma vnorm_zero v : vnorm n v = 0 <-> vzero n v.
  Proof. rewrite <- ip_zero, <- vnorm_sq. split; [intros ->; ring|]. intros H. pose proof (vnorm_nonneg v). nra. Qed.
  Lemma vnorm_scal c v : vnorm n (fun i => c * v i) = Rabs c * vnorm n v.
  Proof.
    unfold vnorm. rewrite ip_scal_l, ip_scal_r, <- Rmult_assoc, sqrt_mult_alt by nra.
    f_equal. apply sqrt_Rsqr_abs.
  Qed.
  Lemma mv_scal A c v : veq n (mv n A (fun i => c * v i)) (fun i => c * mv n A v i).
  Proof. intros i _. unfold mv. rewrite <- Sig_scal. apply Sig_ext. intros; ring. Qed.
  Lemma mv_add A u v : veq n (mv n A (fun i => u i + v i)) (fun i => mv n A u i + mv n A v i).
  Proof. intros i _. unfold mv. rewrite <- Sig_add. apply Sig_ext. intros; ring. Qed.
  Lemma mv_mm A B v : veq n (mv n (mm n A B) v) (mv n A (mv n B v)).
  Proof.
    intros i _. unfold mv, mm.
    transitivity (Sig n (fun j => Sig n (fun k => A i k * B k j * v j))).
    { apply Sig_ext. intros j _. now rewrite <- Sig_scal_r. }
    rewrite Sig_swap. apply Sig_ext. intros k _. rewrite <- Sig_scal. apply Sig_ext. intros; ring.
  Qed.
  Lemma mv_zero A v : vzero n v -> vzero n (mv n A v).
  Proof. intros H i Hi. unfold mv. rewrite <- (Sig_zero n). apply Sig_ext. intros j Hj. rewrite H by assumption. ring. Qed.
  Lemma ip_sym A u v : msym n A -> ip n u (mv n A v) = ip n (mv n A u) v.
  Proof.
    intros S. unfold ip, mv.
    transitivity (Sig n (fun i => Sig n (fun j => u i * A i j * v j))).
    { apply Sig_ext. intros i _. rewrite <- Sig_scal. apply Sig_ext. intros; ring. }
    rewrite Sig_swap. apply Sig_ext. intros j Hj. rewrite <- Sig_scal_r. apply Sig_ext. intros i Hi. rewrite (S i j) by assumption. ring.
  Qed.
  (** Cauchy-Schwarz for the semi-inner product of a symmetric positive semidefinite matrix. *)
  Lemma form_cs A u v : msym n A -> mpsd n A ->
    ip n u (mv n A v) * ip n u (mv n A v) <= ip n u (mv n A u) * ip n v (mv n A v).
  Proof.
    intros S Q. set (a := ip n u (mv n A u)). set (b := ip n u (mv n A v)). set (c := ip n v (mv n A v)).
    assert (Hq : forall t, 0 <= a + 2 * t * b + t * t * c).
    { intros t. pose proof (Q (fun i => u i + t * v i)) as H.
      rewrite (mv_add A u (fun i => t * v i)) in H.
      rewrite ip_add_l, !ip_add_r, ip_scal_l, ip_scal_l in H. rewrite (mv_scal A t v) in H. rewrite !ip_scal_r in H.
      rewrite (ip_comm v (mv n A u)), <- (ip_sym A u v S) in H. fold a b c in H. lra. }
    assert (Ha : 0 <= a) by apply Q. assert (Hc : 0 <= c) by apply Q.
    destruct (Req_dec c 0) as [E|E].
    - destruct (Req_dec b 0) as [Eb|Eb]; [rewrite Eb, E; lra|]. exfalso.
      pose proof (Hq (- (a + 1) / (2 * b))) as H. rewrite E in H. replace (2 * (- (a + 1) / (2 * b)) * b) with (- (a + 1)) in H by (field; exact Eb). lra.
    - pose proof (Hq (- b / c)) as H. replace (a + 2 * (- b / c) * b + - b / c * (- b / c) * c) with ((a * c - b * b) / c) in H by (field; exact E).
      assert (0 < c) by lra. apply Rmult_le_compat_r with (r := c) in H; [|lra]. unfold Rdiv in H. rewrite Rmult_assoc, Rinv_l in H by exact E. lra.
  Qed.
  Lemma ip_cs u v : ip n u v * ip n u v <= ip n u u * ip n v v.
  Proof.
    assert (Ei : forall w, veq n (mv n idm w) w) by (intros w i Hi; apply (Sig_delta n w i Hi)).
    pose proof (form_cs idm u v) as H. rewrite !Ei in H. apply H.
    - intros i j _ _. unfold idm. now rewrite Nat.eqb_sym.
    - intros w. rewrite Ei. apply ip_nonneg.
  Qed.
End Vec.
