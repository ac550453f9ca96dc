(** Arrays holding a given real vector or matrix, and what the matrix operations of the model do
    to them in exact arithmetic. *)
From Verif Require Export RMat M_linalg Rows P_look P_sm3.
From Coq Require Import List Psatz Reals Qreals Lia.
Import ListNotations.
Open Scope R_scope.

(** [t] is an n-vector / an n x n matrix of dtype [d] with the real entries [v] / [A]. *)
Definition is_vec (t : gt XR) (d : fdt) (n : nat) (v : rvec) : Prop :=
  dt t = d /\ shp t = [n] /\ twf t /\ forall i, (i < n)%nat -> nth_error (dat t) i = Some (Fin (v i)).
Definition is_mat (t : gt XR) (d : fdt) (n : nat) (A : rmat) : Prop :=
  dt t = d /\ shp t = [n; n] /\ twf t /\ forall i j, (i < n)%nat -> (j < n)%nat -> nth_error (dat t) (i * n + j) = Some (Fin (A i j)).
(** Frobenius norm. *)
Definition fro (n : nat) (A : rmat) : R := sqrt (Sig n (fun i => Sig n (fun j => A i j * A i j))).

Lemma valid1 n o : valid [n] o <-> exists i, o = [i] /\ (i < n)%nat.
Proof. split; [|intros (i & -> & H); now split]. destruct o as [|i [|? ?]]; cbn; try tauto. intros [H _]. now exists i. Qed.
Lemma valid2 n m o : valid [n; m] o <-> exists i j, o = [i; j] /\ (i < n)%nat /\ (j < m)%nat.
Proof. split; [|intros (i & j & -> & H & H'); now repeat split]. destruct o as [|i [|j [|? ?]]]; cbn; try tauto. intros (H & H' & _). now exists i, j. Qed.
Lemma indices1 n : indices [n] = map (fun i => [i]) (seq 0 n).
Proof. cbn [indices map]. generalize (seq 0 n). induction l; cbn; congruence. Qed.
Lemma indices2 n m : indices [n; m] = flat_map (fun i => map (fun j => [i; j]) (seq 0 m)) (seq 0 n).
Proof.
  change (indices [n; m]) with (flat_map (fun i => map (cons i) (indices [m])) (seq 0 n)). rewrite indices1.
  rewrite !flat_map_concat_map. f_equal. apply map_ext. intros i. now rewrite map_map.
Qed.
Lemma rsum_flat {A B} (f : B -> R) (g : A -> list B) l : rsum (map f (flat_map g l)) = rsum (map (fun a => rsum (map f (g a))) l).
Proof. induction l as [|a l IH]; cbn [flat_map map]; [reflexivity|]. rewrite map_app, rsum_app, rsum_cons, IH. reflexivity. Qed.

Section T.
  Context `{P : Platform}.
  Notation xr := (XROps P).
  Lemma ravel2 (n m i j : nat) : ravel [n; m] [i; j] = (i * m + j)%nat.
  Proof. cbn. lia. Qed.
  Lemma is_vec_tget t d n v : is_vec t d n v -> forall i, (i < n)%nat -> @tget xr t [i] = Fin (v i).
  Proof.
    intros (_ & S & _ & H) i Hi. unfold tget. nx. rewrite S. cbn [ravel prodn fold_right].
    apply nth_error_nth. rewrite Nat.mul_1_r, Nat.add_0_r. now apply H.
  Qed.
  Lemma is_mat_tget t d n A : is_mat t d n A -> forall i j, (i < n)%nat -> (j < n)%nat -> @tget xr t [i; j] = Fin (A i j).
  Proof.
    intros (_ & S & _ & H) i j Hi Hj. unfold tget. nx. rewrite S, ravel2. apply nth_error_nth. now apply H.
  Qed.
  Lemma vec_intro (t : gt XR) d n v : dt t = d -> shp t = [n] -> twf t -> (forall i, (i < n)%nat -> @tget xr t [i] = Fin (v i)) -> is_vec t d n v.
  Proof.
    intros D S W H. repeat split; auto. intros i Hi.
    rewrite <- (H i Hi). pose proof (@tget_nth xr t [i] W) as E. nx. rewrite S in E. cbn [ravel prodn fold_right] in E. rewrite Nat.mul_1_r, Nat.add_0_r in E. apply E. now split.
  Qed.
  Lemma mat_intro (t : gt XR) d n A : dt t = d -> shp t = [n; n] -> twf t -> (forall i j, (i < n)%nat -> (j < n)%nat -> @tget xr t [i; j] = Fin (A i j)) -> is_mat t d n A.
  Proof.
    intros D S W H. repeat split; auto. intros i j Hi Hj.
    rewrite <- (H i j Hi Hj). pose proof (@tget_nth xr t [i; j] W) as E. nx. rewrite S, ravel2 in E. apply E. now repeat split.
  Qed.
  Lemma is_vec_dat t d n v : is_vec t d n v -> dat t = map Fin (map v (seq 0 n)).
  Proof.
    intros H. pose proof H as (_ & S & W & _). etransitivity; [exact (@dat_tget xr t W)|]; nx; rewrite S, indices1, !map_map. apply map_ext_in. intros i Hi. apply In_seq0 in Hi. now apply (is_vec_tget t d n v H).
  Qed.
  Lemma is_mat_dat t d n A : is_mat t d n A -> dat t = map Fin (flat_map (fun i => map (A i) (seq 0 n)) (seq 0 n)).
  Proof.
    intros H. pose proof H as (_ & S & W & _). etransitivity; [exact (@dat_tget xr t W)|]; nx; rewrite S, indices2, !flat_map_concat_map, !concat_map, !map_map. f_equal. apply map_ext_in. intros i Hi. rewrite !map_map. apply map_ext_in. intros j Hj. apply In_seq0 in Hi, Hj. now apply (is_mat_tget t d n A H).
  Qed.
  Lemma fin_list (l : list R) : Forall isfin (map Fin l).
  Proof. apply Forall_map, Forall_forall. intros r _. now exists r. Qed.
  Lemma xval_list (l : list R) : map xval (map Fin l) = l.
  Proof. rewrite map_map. apply map_id. Qed.
  Lemma vec_norm t d n v : is_vec t d n v -> @norm xr t = Fin (vnorm n v).
  Proof.
    intros H. rewrite norm_val by (rewrite (is_vec_dat t d n v H); apply fin_list).
    rewrite (is_vec_dat t d n v H), xval_list. now rewrite vnorm_norm2.
  Qed.
  Lemma mat_norm t d n A : is_mat t d n A -> @norm xr t = Fin (fro n A).
  Proof.
    intros H. rewrite norm_val by (rewrite (is_mat_dat t d n A H); apply fin_list).
    rewrite (is_mat_dat t d n A H), xval_list. unfold norm2, fro. do 2 f_equal.
    rewrite rsum_flat. unfold Sig. apply rsum_map_ext. intros i _. now rewrite map_map.
  Qed.
  Lemma tabv_vec d n f v : (forall i, (i < n)%nat -> f [i] = Fin (v i)) -> is_vec (@tab XR d [n] f) d n v.
  Proof. intros H. apply vec_intro; [reflexivity|reflexivity|apply tab_wf|]. intros i Hi. rewrite (@tget_tab xr) by now split. now apply H. Qed.
  Lemma tabm_mat d n f A : (forall i j, (i < n)%nat -> (j < n)%nat -> f [i; j] = Fin (A i j)) -> is_mat (@tab XR d [n; n] f) d n A.
  Proof. intros H. apply mat_intro; [reflexivity|reflexivity|apply tab_wf|]. intros i j Hi Hj. rewrite (@tget_tab xr) by now repeat split. now apply H. Qed.
  Lemma xsum_sig n f g : (forall j, (j < n)%nat -> g j = Fin (f j)) -> xsum (map g (seq 0 n)) = Fin (Sig n f).
  Proof. intros H. rewrite (map_ext_in g (fun j => Fin (f j))) by (intros j Hj; apply H; now apply In_seq0). rewrite <- map_map, xsum_fin. reflexivity. Qed.
  Lemma matvec_val m v d d' n A x : is_mat m d n A -> is_vec v d' n x -> exists r, @matvec xr m v = Ok r /\ is_vec r (promote d d') n (mv n A x).
  Proof.
    intros HA Hx. pose proof HA as (Dm & Sm & _ & _). pose proof Hx as (Dv & Sv & _ & _). unfold matvec. nx. rewrite Sm, Sv, Nat.eqb_refl. eexists. split; [reflexivity|].
    rewrite Dm, Dv. apply tabv_vec. intros i Hi. cbn [fsum XROps hd]. apply xsum_sig. intros j Hj. rewrite !conv_x. cbn [fmul XROps].
    rewrite (is_mat_tget m d n A HA), (is_vec_tget v d' n x Hx) by assumption. reflexivity.
  Qed.
  Lemma matmul_val a b d d' n A B : is_mat a d n A -> is_mat b d' n B -> exists r, @matmul xr a b = Ok r /\ is_mat r (promote d d') n (mm n A B).
  Proof.
    intros HA HB. pose proof HA as (Da & Sa & _ & _). pose proof HB as (Db & Sb & _ & _). unfold matmul. nx. rewrite Sa, Sb, Nat.eqb_refl. eexists. split; [reflexivity|].
    rewrite Da, Db. apply tabm_mat. intros i j Hi Hj. cbn [fsum XROps hd nth]. apply xsum_sig. intros l Hl. rewrite !conv_x. cbn [fmul XROps].
    rewrite (is_mat_tget a d n A HA), (is_mat_tget b d' n B HB) by assumption. reflexivity.
  Qed.
  Lemma vdot_val u v d n x y : is_vec u d n x -> is_vec v d n y -> @vdot xr u v = Fin (ip n x y).
  Proof.
    intros Hu Hv. unfold vdot. nx. rewrite (is_vec_dat u d n x Hu), (is_vec_dat v d n y Hv), !map_map, map2_map_same. cbn [fsum fmul XROps]. apply xsum_sig. reflexivity.
  Qed.
  (** Binary operators. *)
  Lemma bin_mm op (a b : gt XR) d d' n A B g : is_mat a d n A -> is_mat b d' n B -> (forall dd x y, op dd (Fin x) (Fin y) = Fin (g x y)) ->
    exists r, @bin xr op a b = Ok r /\ is_mat r (promote d d') n (fun i j => g (A i j) (B i j)).
  Proof.
    intros HA HB Hg. pose proof HA as (Da & Sa & Wa & _). pose proof HB as (Db & Sb & Wb & _).
    rewrite (@bin_same_tab xr op a b Wa Wb (eq_trans Sa (eq_sym Sb))). eexists. split; [reflexivity|]. nx. rewrite Da, Db, Sa. apply tabm_mat. intros i j Hi Hj.
    rewrite !conv_x, (is_mat_tget a d n A HA), (is_mat_tget b d' n B HB) by assumption. apply Hg.
  Qed.
  Lemma bin_sm op (b : gt XR) d d' c n B g : is_mat b d' n B -> (forall dd x y, op dd (Fin x) (Fin y) = Fin (g x y)) ->
    exists r, @bin xr op (@scalar xr d (Fin c)) b = Ok r /\ is_mat r (promote d d') n (fun i j => g c (B i j)).
  Proof.
    intros HB Hg. pose proof HB as (Db & Sb & Wb & _).
    rewrite (@bin_tab xr op (@scalar xr d (Fin c)) b [n; n]); [|reflexivity|exact Wb|nx; rewrite Sb; apply bshape_nil_l]. eexists. split; [reflexivity|]. nx. cbn [scalar dt]. rewrite Db, Sb. apply tabm_mat. intros i j Hi Hj.
    rewrite !conv_x, (bidx_same [n; n]) by (now repeat split). rewrite (is_mat_tget b d' n B HB) by assumption. apply Hg.
  Qed.
  Lemma bin_ms op (b : gt XR) d d' c n B g : is_mat b d' n B -> (forall dd x y, op dd (Fin x) (Fin y) = Fin (g x y)) ->
    exists r, @bin xr op b (@scalar xr d (Fin c)) = Ok r /\ is_mat r (promote d' d) n (fun i j => g (B i j) c).
  Proof.
    intros HB Hg. pose proof HB as (Db & Sb & Wb & _).
    rewrite (@bin_tab xr op b (@scalar xr d (Fin c)) [n; n]); [|exact Wb|reflexivity|nx; rewrite Sb; apply bshape_nil_r]. eexists. split; [reflexivity|]. nx. cbn [scalar dt]. rewrite Db, Sb. apply tabm_mat. intros i j Hi Hj.
    rewrite !conv_x, (bidx_same [n; n]) by (now repeat split). rewrite (is_mat_tget b d' n B HB) by assumption. apply Hg.
  Qed.
  Lemma bin_vs op (b : gt XR) d d' c n v : is_vec b d' n v -> 
    exists r, @bin xr op b (@scalar xr d c) = Ok r /\ dt r = promote d' d /\ shp r = [n] /\ twf r /\ forall i, (i < n)%nat -> @tget xr r [i] = op (promote d' d) (Fin (v i)) c.
  Proof.
    intros HB. pose proof HB as (Db & Sb & Wb & _).
    rewrite (@bin_tab xr op b (@scalar xr d c) [n]); [|exact Wb|reflexivity|nx; rewrite Sb; apply bshape_nil_r]. eexists. split; [reflexivity|]. nx. cbn [scalar dt]. rewrite Db, Sb. split; [reflexivity|]. split; [reflexivity|]. split; [apply tab_wf|]. intros i Hi.
    rewrite (@tget_tab xr) by now split. rewrite !conv_x, (bidx_same [n]) by now split. rewrite (is_vec_tget b d' n v HB) by assumption. reflexivity.
  Qed.
  Lemma mat_ext t d n A B : meq n A B -> is_mat t d n A -> is_mat t d n B.
  Proof. intros E (D & S & W & H). repeat split; auto. intros i j Hi Hj. rewrite <- E by assumption. now apply H. Qed.
  Lemma vec_ext t d n u v : veq n u v -> is_vec t d n u -> is_vec t d n v.
  Proof. intros E (D & S & W & H). repeat split; auto. intros i Hi. rewrite <- E by assumption. now apply H. Qed.
  Lemma eye_val n : is_mat (@eye xr n) F32 n idm.
  Proof. apply tabm_mat. intros i j Hi Hj. cbn [hd nth fcast XROps]. unfold idm. destruct (Nat.eqb i j); cbn; [now rewrite Q2R_1|now rewrite Q2R_0]. Qed.
  Lemma max_abs_val m d n A : is_mat m d n A -> (0 < n)%nat -> exists e, @max_abs_diff xr m (@eye xr n) = Ok (Fin e) /\ is_maxdiff n A idm e.
  Proof.
    intros HA Hn. unfold max_abs_diff. destruct (bin_mm (@fsub xr) m (@eye xr n) d F32 n A idm (fun x y => x - y) HA (eye_val n)) as (r & Er & Hr); [reflexivity|].
    nx. rewrite Er. cbn [rbind]. pose proof (is_mat_dat r _ n _ Hr) as Ed. set (l := flat_map (fun i => map (fun j => A i j - idm i j) (seq 0 n)) (seq 0 n)) in *.
    assert (Hin : forall x, In x l <-> exists i j, (i < n)%nat /\ (j < n)%nat /\ x = A i j - idm i j).
    { intros x. unfold l. rewrite in_flat_map. split.
      - intros (i & Hi & Hx). apply in_map_iff in Hx as (j & <- & Hj). apply In_seq0 in Hi, Hj. now exists i, j.
      - intros (i & j & Hi & Hj & ->). exists i. split; [now apply In_seq0|]. apply in_map_iff. exists j. split; [reflexivity|now apply In_seq0]. }
    assert (Hne : l <> []) by (intros E; assert (H : In (A 0%nat 0%nat - idm 0%nat 0%nat) l) by (apply Hin; exists 0%nat, 0%nat; auto); rewrite E in H; exact H).
    destruct (dat r) as [|x0 xs] eqn:Edr; [exfalso; apply Hne; symmetry in Ed; now apply map_eq_nil in Ed|].
    exists (rmaxl (map Rabs l)). split.
    - f_equal. apply max_list_val. nx. rewrite Ed, !map_map. reflexivity.
    - split.
      + intros i j Hi Hj. apply rmaxl_ge. apply in_map, Hin. now exists i, j.
      + assert (Hm : In (rmaxl (map Rabs l)) (map Rabs l)).
        { assert (Hl : map Rabs l <> []) by (intros E; apply map_eq_nil in E; now apply Hne). revert Hl. generalize (map Rabs l). clear. intros [|x r] Hl; [easy|]. clear Hl. cbn [rmaxl]. revert x. induction r as [|y r IH]; intros x; cbn [fold_left]; [now left|].
          destruct (IH (Rmax x y)) as [H|H]; [|right; now right]. rewrite <- H. unfold Rmax. destruct (Rle_dec x y); [right; now left|now left]. }
        apply in_map_iff in Hm as (x & Ex & Hx). apply Hin in Hx as (i & j & Hi & Hj & ->). exists i, j. auto.
  Qed.
End T.
