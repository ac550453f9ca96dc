(** SM3. *)
From Verif Require Export P_unit.
From Coq Require Import Psatz Qreals.
Open Scope R_scope.
(*@header
Open Scope R_scope.
*)

(** ** Specification: the cover accumulators of SM3 on one array of shape [s].
    [G n o] is the gradient of step n at index o. *)
Definition rmaxl (l : list R) : R := match l with [] => 0 | x :: r => fold_left Rmax r x end.
Definition rminl (l : list R) : R := match l with [] => 0 | x :: r => fold_left Rmin r x end.
(** max of A over the slice of indices whose coordinate [k] is [c] *)
Definition axis_max (s : list nat) (A : list nat -> R) (k c : nat) : R :=
  rmaxl (map A (filter (fun o => (nth k o 0 =? c)%nat) (indices s))).
(** min over the axes of the maxima of the slices through [o] *)
Definition cover_min (s : list nat) (A : list nat -> R) (o : list nat) : R :=
  rminl (map (fun k => axis_max s A k (nth k o 0%nat)) (seq 0 (length s))).
Fixpoint sm3_acc (b2 : R) (s : list nat) (G : nat -> list nat -> R) (n : nat) (o : list nat) : R :=
  (if Req_EM_T b2 1 then 1 else 1 - b2) * (G n o * G n o) +
  b2 * match n with O => 0 | S m => cover_min s (sm3_acc b2 s G m) o end.
(** the preconditioned gradient *)
Definition sm3_up (b2 eps : R) (s : list nat) (G : nat -> list nat -> R) (n : nat) (o : list nat) : R :=
  let a := sm3_acc b2 s G n o in if Rlt_dec 0 a then G n o / sqrt (a + eps) else 0.

(** ** Real lemmas *)
Lemma fold_Rmax_ge l x y : x <= fold_left Rmax l x /\ (In y l -> y <= fold_left Rmax l x).
Proof.
  revert x; induction l as [|a l IH]; intros x; cbn; [split; [lra|easy]|].
  destruct (IH (Rmax x a)) as [H1 H2]. split; [pose proof (Rmax_l x a); lra|].
  intros [->|Hy]; [pose proof (Rmax_r x y); lra|auto].
Qed.
Lemma rmaxl_ge l y : In y l -> y <= rmaxl l.
Proof. destruct l as [|x l]; [easy|]. cbn. destruct (fold_Rmax_ge l x y) as [H1 H2]. intros [->|H]; auto. Qed.
Lemma fold_Rmin_glb l x m : m <= x -> (forall y, In y l -> m <= y) -> m <= fold_left Rmin l x.
Proof. revert x; induction l as [|a l IH]; intros x Hx H; cbn; [assumption|]. apply IH; [apply Rmin_glb; auto; apply H; now left|intros; apply H; now right]. Qed.
Lemma rminl_glb l m : l <> [] -> (forall y, In y l -> m <= y) -> m <= rminl l.
Proof. destruct l as [|x l]; [easy|]. intros _ H. cbn. apply fold_Rmin_glb; [apply H; now left|intros; apply H; now right]. Qed.
Lemma axis_max_ge s A k o : valid s o -> A o <= axis_max s A k (nth k o 0%nat).
Proof.
  intros V. unfold axis_max. apply rmaxl_ge. apply in_map. apply filter_In. split; [now apply In_indices|apply Nat.eqb_refl].
Qed.
Lemma cover_min_ge s A o : valid s o -> s <> [] -> A o <= cover_min s A o.
Proof.
  intros V Hs. unfold cover_min. apply rminl_glb.
  - destruct s; [easy|]. cbn. discriminate.
  - intros y Hy. apply in_map_iff in Hy as (k & <- & _). now apply axis_max_ge.
Qed.
Lemma sm3_dominates s G n o : s <> [] -> valid s o -> sum_f_R0 (fun i => G i o * G i o) n <= sm3_acc 1 s G n o.
Proof.
  intros Hs V. induction n as [|n IH]; cbn [sm3_acc sum_f_R0]; (destruct (Req_EM_T 1 1); [|easy]).
  - lra.
  - pose proof (cover_min_ge s (sm3_acc 1 s G n) o V Hs). lra.
Qed.
Lemma sm3_acc_nonneg b2 s G n o : 0 <= b2 <= 1 -> s <> [] -> valid s o -> 0 <= sm3_acc b2 s G n o.
Proof.
  intros Hb Hs V. revert o V. induction n as [|n IH]; intros o V; cbn [sm3_acc];
    assert (0 <= (if Req_EM_T b2 1 then 1 else 1 - b2)) by (destruct (Req_EM_T b2 1); lra);
    assert (0 <= G 0%nat o * G 0%nat o) by nra.
  - nra.
  - assert (0 <= G (S n) o * G (S n) o) by nra. pose proof (cover_min_ge s (sm3_acc b2 s G n) o V Hs). pose proof (IH o V). nra.
Qed.
Lemma sm3_acc_mono s G n o : s <> [] -> valid s o -> sm3_acc 1 s G n o + G (S n) o * G (S n) o <= sm3_acc 1 s G (S n) o.
Proof.
  intros Hs V. cbn [sm3_acc]. destruct (Req_EM_T 1 1); [|easy].
  pose proof (cover_min_ge s (sm3_acc 1 s G n) o V Hs). unfold cover_min in *. change (seq 0 (length s)) with (seq 0 (length s)) in *. lra.
Qed.
Lemma sm3_up_bound eps s G n o : 0 <= eps -> s <> [] -> valid s o -> Rabs (sm3_up 1 eps s G n o) <= 1.
Proof.
  intros He Hs V. unfold sm3_up. pose proof (sm3_dominates s G n o Hs V) as Hd.
  assert (Hg : G n o * G n o <= sm3_acc 1 s G n o).
  { eapply Rle_trans; [|exact Hd]. destruct n as [|n]; cbn; [lra|].
    assert (0 <= sum_f_R0 (fun i => G i o * G i o) n) by (apply cond_pos_sum; intros; nra). lra. }
  destruct (Rlt_dec 0 _) as [Hp|Hp]; [|rewrite Rabs_R0; lra].
  assert (Hsq : 0 < sqrt (sm3_acc 1 s G n o + eps)) by (apply sqrt_lt_R0; lra).
  unfold Rdiv. rewrite Rabs_mult, (Rabs_right (/ _)) by (left; now apply Rinv_0_lt_compat).
  apply (Rmult_le_reg_r (sqrt (sm3_acc 1 s G n o + eps))); [assumption|]. rewrite Rmult_assoc, Rinv_l by lra. rewrite Rmult_1_r, Rmult_1_l.
  rewrite <- sqrt_Rsqr_abs. apply sqrt_le_1_alt. unfold Rsqr. lra.
Qed.

(** ** Arrays broadcast along axes *)
Definition sub (s a : list nat) : Prop := Forall2 (fun n m => m = n \/ m = 1%nat) s a.
Lemma sub_refl s : sub s s.
Proof. induction s; constructor; auto. Qed.
Lemma sub_length s a : sub s a -> length a = length s.
Proof. induction 1; cbn; congruence. Qed.
Lemma sub_bdims s a b : sub s a -> sub s b -> exists c, bdims a b = Some c /\ sub s c.
Proof.
  intros Ha. revert b. induction Ha as [|n m s a Hm Ha IH]; intros b Hb; inversion Hb as [|? k ? b' Hk Hb']; subst; cbn; [exists []; repeat constructor|].
  destruct (IH b' Hb') as (c & -> & Hc). unfold bdim.
  destruct (Nat.eqb_spec m k) as [->|]; [eexists; split; [reflexivity|constructor; auto]|].
  destruct (Nat.eqb_spec m 1) as [->|]; [eexists; split; [reflexivity|constructor; auto]|].
  destruct (Nat.eqb_spec k 1) as [->|]; [eexists; split; [reflexivity|constructor; auto]|]. exfalso. destruct Hm, Hk; congruence.
Qed.
Lemma sub_bshape s a b : sub s a -> sub s b -> exists c, bshape a b = Some c /\ sub s c /\ bdims a b = Some c.
Proof.
  intros Ha Hb. destruct (sub_bdims s a b Ha Hb) as (c & E & Hc). exists c. split; [|auto].
  unfold bshape. rewrite (sub_length _ _ Ha), (sub_length _ _ Hb), Nat.max_id.
  unfold padl. rewrite (sub_length _ _ Ha), (sub_length _ _ Hb), Nat.sub_diag. exact E.
Qed.
Lemma sub_bidx s a o : sub s a -> valid s o -> bidx a o = map2 (fun n i => if (n =? 1)%nat then 0%nat else i) a o.
Proof. intros Ha V. unfold bidx. now rewrite (sub_length _ _ Ha), (valid_length _ _ V), Nat.sub_diag. Qed.
Lemma sub_bidx_valid s a o : sub s a -> valid s o -> valid a (bidx a o).
Proof.
  intros Ha V. rewrite (sub_bidx s a o Ha V). revert o V. induction Ha as [|n m s a Hm Ha IH]; intros [|i o]; cbn; try easy.
  intros [Hi V]. split; [destruct (Nat.eqb_spec m 1); [lia|destruct Hm; [now subst|easy]]|now apply IH].
Qed.
Lemma sub_bidx_bidx s a b c o : sub s a -> sub s b -> bdims a b = Some c -> sub s c -> valid s o ->
  bidx a (bidx c o) = bidx a o /\ bidx b (bidx c o) = bidx b o.
Proof.
  intros Ha Hb E Hc V. pose proof (sub_bidx_valid s c o Hc V) as Vc.
  assert (La : length a = length (bidx c o)) by (rewrite (valid_length _ _ Vc), (sub_length _ _ Ha), (sub_length _ _ Hc); reflexivity).
  assert (Lb : length b = length (bidx c o)) by (rewrite (valid_length _ _ Vc), (sub_length _ _ Hb), (sub_length _ _ Hc); reflexivity).
  unfold bidx at 1 4. rewrite La, Lb, Nat.sub_diag. cbn [skipn].
  rewrite !(sub_bidx s) by assumption. clear Vc La Lb.
  revert b c o Hb E Hc V. induction Ha as [|n m s a Hm Ha IH]; intros b c o Hb E Hc V;
    inversion Hb as [|? k ? b' Hk Hb']; subst; cbn in E; inversion E; subst; [now destruct o|].
  destruct o as [|i o]; [destruct V|]. destruct V as [Hi V].
  destruct (bdim m k) as [x|] eqn:Ed; [|discriminate]. destruct (bdims a b') as [y|] eqn:Ey; [|discriminate].
  injection E as <-. inversion Hc as [|? ? ? ? Hx Hy]; subst. destruct (IH b' y o Hb' Ey Hy V) as [E1 E2]. cbn. rewrite E1, E2.
  assert (Hone : x = 1%nat -> m = 1%nat /\ k = 1%nat).
  { intros ->. unfold bdim in Ed. destruct (Nat.eqb_spec m k); [injection Ed as Ed; lia|].
    destruct (Nat.eqb_spec m 1); [injection Ed as Ed; lia|]. destruct (Nat.eqb_spec k 1); [injection Ed as Ed; lia|discriminate]. }
  destruct (Nat.eqb_spec m 1), (Nat.eqb_spec k 1), (Nat.eqb_spec x 1); split; try reflexivity; exfalso; destruct Hone; auto.
Qed.
Lemma bin_sub `{O : Ops} op (x y : tensor) s : sub s (shp x) -> sub s (shp y) -> twf x -> twf y ->
  exists z, bin op x y = Ok z /\ sub s (shp z) /\ twf z /\ dt z = promote (dt x) (dt y) /\
    (shp x = s \/ shp y = s -> shp z = s) /\
    forall o, valid s o -> let D := promote (dt x) (dt y) in
      tget z (bidx (shp z) o) = op D (conv (dt x) D (tget x (bidx (shp x) o))) (conv (dt y) D (tget y (bidx (shp y) o))).
Proof.
  intros Hx Hy Wx Wy. destruct (sub_bshape s _ _ Hx Hy) as (c & E & Hc & Ed).
  rewrite (bin_tab op x y c Wx Wy E). eexists. split; [reflexivity|]. split; [exact Hc|]. split; [apply tab_wf|]. split; [reflexivity|]. split.
  - cbn [shp tab]. intros H. clear - H Hx Hy Ed. revert c Ed H. generalize (shp x) as a, (shp y) as b, Hx, Hy. clear.
    intros a b Ha. revert b. induction Ha as [|n m s a Hm Ha IH]; intros b Hb c Ed H; inversion Hb as [|? k ? b' Hk Hb']; subst; cbn in Ed; [now injection Ed as <-|].
    destruct (bdim m k) as [z|] eqn:E1; [|discriminate]. destruct (bdims a b') as [w|] eqn:E2; [|discriminate]. injection Ed as <-.
    assert (H' : (a = s \/ b' = s) /\ (m = n \/ k = n)) by (destruct H as [[= -> ->]|[= -> ->]]; auto). destruct H' as [H1 H2].
    f_equal; [|now apply (IH b' Hb')]. unfold bdim in E1. destruct (Nat.eqb_spec m k); [injection E1 as <-; intuition congruence|].
    destruct (Nat.eqb_spec m 1); [injection E1 as <-; subst; intuition congruence|]. destruct (Nat.eqb_spec k 1); [injection E1 as <-; subst; intuition congruence|discriminate].
  - intros o V D. cbn [shp tab]. rewrite tget_tab by now apply (sub_bidx_valid s).
    destruct (sub_bidx_bidx s _ _ c o Hx Hy Ed Hc V) as [-> ->]. reflexivity.
Qed.

(** Shapes with all axes but one equal to 1. *)
Fixpoint ex (s : list nat) (i : nat) : list nat :=
  match s, i with
  | [], _ => []
  | n :: s', O => n :: map (fun _ => 1%nat) s'
  | _ :: s', S i' => 1%nat :: ex s' i'
  end.
Fixpoint rd (s : list nat) (i : nat) : list bool :=
  match s, i with
  | [], _ => []
  | _ :: s', O => false :: map (fun _ => true) s'
  | _ :: s', S i' => true :: rd s' i'
  end.
Lemma expanded_ex s i : expanded_shape s i = ex s i.
Proof.
  unfold expanded_shape. revert i; induction s as [|n s IH]; intros i; cbn [length seq map ex]; [reflexivity|].
  rewrite <- seq_shift, map_map. destruct i as [|i]; cbn [Nat.eqb nth].
  - f_equal. clear. induction s as [|a s IHs]; cbn; [reflexivity|]. f_equal. rewrite <- seq_shift, map_map. exact IHs.
  - f_equal. rewrite <- IH. reflexivity.
Qed.
Lemma red_rd s i : map (fun j => negb (j =? i)%nat) (seq 0 (length s)) = rd s i.
Proof.
  revert i; induction s as [|n s IH]; intros i; cbn [length seq map rd]; [reflexivity|].
  rewrite <- seq_shift, map_map. destruct i as [|i]; cbn [Nat.eqb negb].
  - f_equal. clear. induction s as [|a s IHs]; cbn; [reflexivity|]. f_equal. rewrite <- seq_shift, map_map. exact IHs.
  - f_equal. rewrite <- IH. reflexivity.
Qed.
Lemma reduced_trues s : reduced_shape (map (fun _ => true) s) s = map (fun _ => 1%nat) s.
Proof. induction s as [|n s IH]; cbn; [reflexivity|]. now rewrite <- IH. Qed.
Lemma reduced_rd s i : reduced_shape (rd s i) s = ex s i.
Proof.
  revert i; induction s as [|n s IH]; intros [|i]; cbn; try reflexivity; f_equal; [apply reduced_trues|apply IH].
Qed.
Lemma rd_length s i : length (rd s i) = length s.
Proof. revert i; induction s as [|n s IH]; intros [|i]; cbn; rewrite ?map_length; auto. Qed.
Lemma ones_sub s : sub s (map (fun _ => 1%nat) s).
Proof. induction s; constructor; auto. Qed.
Lemma ex_sub s i : sub s (ex s i).
Proof. revert i; induction s as [|n s IH]; intros [|i]; cbn; constructor; auto; [apply ones_sub|apply IH]. Qed.
Lemma prodn_ones (s : list nat) : prodn (map (fun _ => 1%nat) s) = 1%nat.
Proof. induction s as [|n s IH]; cbn; [reflexivity|]. fold (prodn (map (fun _ : nat => 1%nat) s)). rewrite IH. reflexivity. Qed.
Lemma prodn_cons n s : prodn (n :: s) = (n * prodn s)%nat. Proof. reflexivity. Qed.
Lemma prodn_ex s i : (i < length s)%nat -> prodn (ex s i) = nth i s 0%nat.
Proof.
  revert i; induction s as [|n s IH]; intros [|i]; cbn [length ex nth]; intros H; try lia.
  - rewrite prodn_cons, prodn_ones. lia.
  - rewrite prodn_cons, IH by lia. lia.
Qed.
Lemma ravel_ones (s o : list nat) : ravel (map (fun _ => 1%nat) s) (map2 (fun n i => if (n =? 1)%nat then 0%nat else i) (map (fun _ => 1%nat) s) o) = 0%nat.
Proof. revert o; induction s as [|n s IH]; intros [|i o]; cbn; try reflexivity. now rewrite IH. Qed.
Lemma ravel_ex s i o : (i < length s)%nat -> valid s o -> ravel (ex s i) (bidx (ex s i) o) = nth i o 0%nat.
Proof.
  intros Hi V. rewrite (sub_bidx s) by (try apply ex_sub; assumption).
  revert i o Hi V; induction s as [|n s IH]; intros i [|k o]; cbn [length]; intros Hi V; try (cbn in V; easy); try lia. destruct V as [Hk V].
  destruct i as [|i]; cbn [ex map2 ravel nth].
  - rewrite ravel_ones, prodn_ones. destruct (Nat.eqb_spec n 1); lia.
  - rewrite IH by (try lia; assumption). cbn. lia.
Qed.
Lemma proj_eqb_trues (s o o' : list nat) : length o = length s -> length o' = length s ->
  list_eqb Nat.eqb (proj (map (fun _ => true) s) o') (proj (map (fun _ => true) s) o) = true.
Proof. intros H1 H2. rewrite !proj_trues by assumption. now apply (list_eqb_spec Nat.eqb Nat.eqb_eq). Qed.
Lemma rd_fiber s i o : (i < length s)%nat -> valid s o ->
  fiber (rd s i) s (proj (rd s i) o) = filter (fun o' => (nth i o' 0 =? nth i o 0)%nat) (indices s).
Proof.
  intros Hi V. unfold fiber. apply filter_ext_in. intros o' Ho'. apply In_indices, valid_length in Ho'. apply valid_length in V.
  revert i o o' Hi V Ho'. induction s as [|n s IH]; intros i [|k o] [|k' o']; cbn [length]; intros Hi V V'; try lia.
  injection V as V. injection V' as V'. destruct i as [|i]; cbn [rd proj map2 nth list_eqb].
  - change (map2 (fun (r : bool) (i : nat) => if r then 0%nat else i)) with proj. rewrite proj_eqb_trues by assumption. now rewrite andb_true_r.
  - change (map2 (fun (r : bool) (i : nat) => if r then 0%nat else i)) with proj. rewrite Nat.eqb_refl. cbn. apply IH; auto. lia.
Qed.

(** ** One leaf *)
Section Leaf.
  Context `{P : Platform}.
  Notation xr := (XROps P).
  Definition mu_ok (s : list nat) (A : list nat -> R) (mu : tree (gt XR)) : Prop :=
    exists k vs, mu = Node k (map Leaf vs) /\ length vs = length s /\
      forall i v, nth_error vs i = Some v -> shp v = [nth i s 0%nat] /\ twf v /\
        forall o, valid s o -> nth_error (dat v) (nth i o 0%nat) = Some (Fin (axis_max s A i (nth i o 0%nat))).

  Lemma rmaxl_const (l : list R) c : (forall x, In x l -> x = c) -> l <> [] -> rmaxl l = c.
  Proof.
    destruct l as [|x l]; [easy|]. intros H _. cbn. assert (x = c) as -> by (apply H; now left).
    assert (Hl : forall y, In y l -> y = c) by (intros; apply H; now right). clear H.
    induction l as [|y l IH]; cbn; [reflexivity|]. assert (y = c) as -> by (apply Hl; now left). rewrite Rmax_left by lra.
    apply IH. intros; apply Hl; now right.
  Qed.
  Lemma axis_max_zero s k c : axis_max s (fun _ => 0) k c = 0.
  Proof.
    unfold axis_max. generalize (filter (fun o => (nth k o 0 =? c)%nat) (indices s)) as l. intros [|x l]; [reflexivity|].
    apply rmaxl_const; [|discriminate]. intros y Hy. apply in_map_iff in Hy as (? & <- & _). reflexivity.
  Qed.
  Lemma mu_ok_init (p : gt XR) : mu_ok (shp p) (fun _ => 0) (@zeros_for_dim xr p).
  Proof.
    exists KList, (map (fun s => @full xr (@defdt xr) [s] (@fzero xr)) (shp p)). split; [unfold zeros_for_dim; now rewrite map_map|].
    split; [now rewrite map_length|]. intros i v E. rewrite nth_error_map in E.
    destruct (nth_error (shp p) i) as [n|] eqn:En; cbn in E; [|discriminate]. injection E as <-.
    rewrite (nth_error_nth _ _ 0%nat En). split; [reflexivity|]. split; [apply (@full_wf xr)|].
    intros o V. rewrite axis_max_zero. unfold full. cbn [dat fcast XROps].
    assert (Hn : (nth i o 0 < n)%nat).
    { clear - V En. revert i o V En. induction (shp p) as [|m s IH]; intros [|i] [|k o]; cbn; try easy. now intros [Hk _] [= <-]. intros [_ V] E. now apply (IH i o). }
    rewrite (nth_error_nth' _ (Fin 0)) by (rewrite repeat_length; cbn; lia). f_equal. transitivity (nth (nth i o 0%nat) (repeat (@fzero xr) (prodn [n])) (Fin 0)); [reflexivity|]. rewrite (@f0 P).
    clear. generalize (prodn [n]) as m, (nth i o 0%nat) as j. induction m as [|m IH]; intros [|j]; cbn; auto.
  Qed.

  Definition expanded (s : list nat) (A : list nat -> R) (xs : list (gt XR)) : Prop :=
    length xs = length s /\ forall i x, nth_error xs i = Some x -> sub s (shp x) /\ twf x /\
      forall o, valid s o -> @tget xr x (bidx (shp x) o) = Fin (axis_max s A i (nth i o 0%nat)).
  Lemma expand_val (g : gt XR) A mu : mu_ok (shp g) A mu ->
    exists xs, @sm3_expand xr g mu = Ok (Node KList (map Leaf xs)) /\ expanded (shp g) A xs.
  Proof.
    intros (k & vs & -> & L & Hv). set (s := shp g) in *.
    set (xs := map2 (fun i (v : gt XR) => mkT (dt v) (ex s i) (dat v)) (seq 0 (length s)) vs).
    assert (Hx : forall i x, nth_error xs i = Some x -> exists v, nth_error vs i = Some v /\ x = mkT (dt v) (ex s i) (dat v) /\ (i < length s)%nat).
    { intros i x. unfold xs. rewrite nth_error_map2. destruct (nth_error (seq 0 (length s)) i) as [j|] eqn:Ej; [|discriminate].
      assert (Hi : (i < length s)%nat) by (rewrite <- (seq_length (length s) 0); apply nth_error_Some; congruence).
      rewrite nth_error_nth' with (d := 0%nat) in Ej by (rewrite seq_length; lia). rewrite seq_nth in Ej by lia. injection Ej as <-.
      destruct (nth_error vs i) as [v|]; [|discriminate]. intros [= <-]. exists v. auto. }
    exists xs. split; [|split].
    - unfold sm3_expand. nx. fold s.
      assert (E : mapM (fun i => let* x := @list_item xr (Node k (map Leaf vs)) i in @reshape xr (expanded_shape s i) x) (seq 0 (length s)) = Ok xs).
      { assert (G : forall n m (ws : list (gt XR)), (forall i v, nth_error ws i = Some v -> nth_error vs (n + i) = Some v) -> length ws = m -> (n + m <= length s)%nat ->
          mapM (fun i => let* x := @list_item xr (Node k (map Leaf vs)) i in @reshape xr (expanded_shape s i) x) (seq n m) =
          Ok (map2 (fun i (v : gt XR) => mkT (dt v) (ex s i) (dat v)) (seq n m) ws)).
        { intros n m. revert n; induction m as [|m IH]; intros n [|w ws] Hws Hl Hnm; cbn in Hl; try discriminate; [reflexivity|].
          cbn [seq mapM map2]. pose proof (Hws 0%nat w eq_refl) as Hw. rewrite Nat.add_0_r in Hw.
          unfold list_item at 1. rewrite nth_error_map, Hw. cbn [option_map as_leaf rbind].
          destruct (Hv n w Hw) as (Sw & Ww & _). unfold reshape at 1. nx. rewrite Sw, expanded_ex, prodn_ex by lia. cbn [prodn fold_right].
          rewrite Nat.mul_1_r, Nat.eqb_refl. cbn [rbind]. rewrite (IH (S n) ws); [reflexivity| |lia|lia].
          intros i v Hi. replace (S n + i)%nat with (n + S i)%nat by lia. now apply Hws. }
        apply G; [intros; assumption|assumption|lia]. }
      exact (f_equal (fun r => rbind r (fun l => Ok (Node KList (map Leaf l)))) E).
    - unfold xs. rewrite map2_length, seq_length. lia.
    - intros i x Ei. destruct (Hx i x Ei) as (v & Ev & -> & Hi). destruct (Hv i v Ev) as (Sv & Wv & He).
      cbn [shp]. split; [apply ex_sub|]. split.
      + unfold twf in *. cbn [dat shp]. rewrite Wv, Sv, prodn_ex by assumption. cbn. lia.
      + intros o V. unfold tget. cbn [shp dat]. rewrite ravel_ex by assumption. apply nth_error_nth. now apply He.
  Qed.

  Lemma minimum_val s (l : list (gt XR)) : forall (m : gt XR) (fm : list nat -> R) (fl : list (list nat -> R)),
    sub s (shp m) -> twf m -> (forall o, valid s o -> @tget xr m (bidx (shp m) o) = Fin (fm o)) ->
    Forall2 (fun x f => sub s (shp x) /\ twf x /\ forall o, valid s o -> @tget xr x (bidx (shp x) o) = Fin (f o)) l fl ->
    exists z, @minimum_from xr m (map Leaf l) = Ok z /\ sub s (shp z) /\ twf z /\
      forall o, valid s o -> @tget xr z (bidx (shp z) o) = Fin (fold_left Rmin (map (fun f => f o) fl) (fm o)).
  Proof.
    induction l as [|x l IH]; intros m fm fl Hm Wm Vm HF; inversion HF as [|? f ? fl' (Hx & Wx & Vx) HF']; subst; cbn [map minimum_from].
    - exists m. auto.
    - cbn [as_leaf rbind]. destruct (@bin_sub xr (fun _ => @fmin xr) m x s Hm Hx Wm Wx) as (z & Ez & Hz & Wz & _ & _ & Vz).
      rewrite Ez. cbn [rbind]. apply (IH z (fun o => Rmin (fm o) (f o)) fl'); auto.
      intros o V. specialize (Vz o V). cbn zeta in Vz. nx. rewrite Vz, !xconv, Vm, Vx by assumption. reflexivity.
  Qed.

  Definition c0 (b2 : R) : R := if Req_EM_T b2 1 then 1 else 1 - b2.
  Lemma c0_val b2 : (if @feqb xr (Fin b2) (@fone xr) then @fone xr else @py1m xr (Fin b2)) = Fin (c0 b2).
  Proof.
    rewrite f1, xpy1m. unfold c0. cbn [feqb XROps]. destruct (Req_EM_T b2 1) as [->|H].
    - assert (E : xeqb (Fin 1) (Fin 1) = true) by now apply xeqb_fin. now rewrite E.
    - assert (E : xeqb (Fin b2) (Fin 1) = false) by now apply xeqb_fin_f. now rewrite E.
  Qed.
  Definition next_acc (b2 : R) (s : list nat) (A : list nat -> R) (G : list nat -> R) (o : list nat) : R :=
    c0 b2 * (G o * G o) + b2 * cover_min s A o.
  Lemma accum_val (g : gt XR) (b2 : R) A xs : twf g -> Forall isfin (dat g) -> shp g <> [] -> expanded (shp g) A xs ->
    exists acc, @sm3_new_accum xr (Fin b2) g (Node KList (map Leaf xs)) = Ok acc /\ shp acc = shp g /\ twf acc /\
      forall o, valid (shp g) o -> @tget xr acc o = Fin (next_acc b2 (shp g) A (rget g) o).
  Proof.
    intros Wg Fg Hs (L & He). set (s := shp g) in *. unfold sm3_new_accum. rewrite c0_val. nx. fold s.
    set (g2 := @sl xr (@fmul xr) (Fin (c0 b2)) (@tsquare xr g)).
    assert (Wg2 : twf g2) by (unfold g2, sl, tsquare, un; now apply emap_wf, emap_wf).
    assert (Vg2 : forall o, valid s o -> @tget xr g2 o = Fin (c0 b2 * (rget g o * rget g o))).
    { intros o V. unfold g2, sl. rewrite tget_emap_gen; [|unfold tsquare, un; now apply emap_wf|exact V].
      unfold tsquare, un. rewrite tget_emap_gen by assumption. rewrite fin_tget by assumption. reflexivity. }
    assert (Fin_ : forall (m : gt XR) fm, sub s (shp m) -> twf m -> (forall o, valid s o -> @tget xr m (bidx (shp m) o) = Fin (fm o)) ->
      exists acc, @bin xr (@fadd xr) g2 (@sl xr (@fmul xr) (Fin b2) m) = Ok acc /\ shp acc = s /\ twf acc /\
        forall o, valid s o -> @tget xr acc o = Fin (c0 b2 * (rget g o * rget g o) + b2 * fm o)).
    { intros m fm Hm Wm Vm.
      destruct (@bin_sub xr (@fadd xr) g2 (@sl xr (@fmul xr) (Fin b2) m) s (sub_refl s) Hm Wg2) as (z & Ez & _ & Wz & _ & Hsz & Vz).
      { unfold sl. now apply emap_wf. }
      assert (Sz : shp z = s) by (apply Hsz; now left). exists z. split; [exact Ez|]. split; [exact Sz|]. split; [exact Wz|].
      intros o V. specialize (Vz o V). cbn zeta in Vz. nx. rewrite Sz, bidx_same in Vz by assumption. rewrite Vz, !xconv.
      change (shp g2) with s. rewrite bidx_same, Vg2 by assumption.
      unfold sl. rewrite tget_emap_gen; [|assumption|now apply (sub_bidx_valid s)]. cbn [shp emap]. rewrite Vm by assumption. reflexivity. }
    destruct xs as [|x xs]; [cbn in L; destruct s; easy|].
    destruct (He 0%nat x eq_refl) as (Hx & Wx & Vx).
    destruct (Nat.ltb_spec (length s) 2) as [Hr|Hr].
    - unfold list_item. cbn [map nth_error as_leaf rbind]. destruct (Fin_ x _ Hx Wx Vx) as (acc & E & Sa & Wa & Va).
      exists acc. split; [exact E|]. split; [exact Sa|]. split; [exact Wa|]. intros o V. rewrite (Va o V). unfold next_acc, cover_min.
      destruct s as [|n [|n' s']]; [easy| |cbn in Hr; lia]. reflexivity.
    - cbn [map as_leaf rbind].
      assert (HF : forall k (ys : list (gt XR)), (forall i y, nth_error ys i = Some y -> nth_error (x :: xs) (k + i) = Some y) ->
         Forall2 (fun y f => sub s (shp y) /\ twf y /\ forall o, valid s o -> @tget xr y (bidx (shp y) o) = Fin (f o)) ys
           (map (fun i o => axis_max s A i (nth i o 0%nat)) (seq k (length ys)))).
      { intros k ys. revert k. induction ys as [|y ys IH]; intros k Hk; cbn [length seq map]; constructor.
        - apply He. specialize (Hk 0%nat y eq_refl). now rewrite Nat.add_0_r in Hk.
        - apply IH. intros i z Hz. replace (S k + i)%nat with (k + S i)%nat by lia. now apply Hk. }
      destruct (minimum_val s xs x _ _ Hx Wx Vx (HF 1%nat xs (fun i y H => H))) as (m & Em & Hm & Wm & Vm).
      nx. rewrite Em. cbn [rbind]. destruct (Fin_ m _ Hm Wm Vm) as (acc & E & Sa & Wa & Va).
      exists acc. split; [exact E|]. split; [exact Sa|]. split; [exact Wa|]. intros o V. rewrite (Va o V). unfold next_acc, cover_min.
      rewrite <- L. cbn [length seq map rminl]. rewrite map_map. reflexivity.
  Qed.

  Lemma max_list_val (l : list XR) (rs : list R) : l = map Fin rs -> @max_list xr l = Fin (rmaxl rs).
  Proof.
    intros ->. destruct rs as [|r rs]; cbn [map max_list rmaxl]; [apply f0|].
    revert r; induction rs as [|a rs IH]; intros r; cbn [map fold_left]; [reflexivity|]. cbn [fmax XROps xmax] in *. apply IH.
  Qed.
  Lemma mus_val (acc : gt XR) A : twf acc -> shp acc <> [] -> Forall (fun n => (0 < n)%nat) (shp acc) ->
    (forall o, valid (shp acc) o -> @tget xr acc o = Fin (A o)) ->
    exists mu, @sm3_mus xr acc = Ok mu /\ mu_ok (shp acc) A mu.
  Proof.
    intros W Hs Hpos Va. set (s := shp acc) in *. unfold sm3_mus. nx. fold s.
    assert (Hmu : forall i, (i < length s)%nat -> exists v, @sm3_new_mu xr acc i = Ok v /\ shp v = [nth i s 0%nat] /\ twf v /\
      forall o, valid s o -> nth_error (dat v) (nth i o 0%nat) = Some (Fin (axis_max s A i (nth i o 0%nat)))).
    { intros i Hi. unfold sm3_new_mu. nx. fold s. destruct (Nat.ltb_spec (length s) 2) as [Hr|Hr].
      - exists acc. split; [reflexivity|]. fold s. destruct s as [|n [|n' s']] eqn:Es; [easy| |cbn in Hr; lia].
        assert (i = 0%nat) as -> by (cbn in Hi; lia). split; [reflexivity|]. split; [exact W|]. intros [|c [|c' o]] V; try (cbn in V; easy).
        cbn [nth]. pose proof (@tget_nth xr acc [c] W) as Ht. nx. change (shp acc) with s in Ht. rewrite Es in Ht. specialize (Ht V). cbn [ravel prodn fold_right] in Ht.
        replace (c * 1 + 0)%nat with c in Ht by lia. rewrite Ht. rewrite (Va [c] V). do 2 f_equal. symmetry. unfold axis_max.
        apply rmaxl_const.
        + intros x Hx. apply in_map_iff in Hx as (o & <- & Ho). apply filter_In in Ho as [Ho Hc]. apply In_indices in Ho.
          destruct o as [|d [|d' o]]; try (cbn in Ho; easy). cbn in Hc. apply Nat.eqb_eq in Hc. now subst.
        + assert (Hin : In [c] (filter (fun o => (nth 0 o 0 =? c)%nat) (indices [n]))) by (apply filter_In; split; [now apply In_indices|cbn; apply Nat.eqb_refl]).
          intros E. apply map_eq_nil in E. rewrite E in Hin. destruct Hin.
      - assert (E0 : existsb (fun j => negb (j =? i)%nat && (nth j s 0 =? 0)%nat) (seq 0 (length s)) = false).
        { apply not_true_iff_false. intros E. apply existsb_exists in E as (j & Hj & E). apply in_seq in Hj. apply andb_prop in E as [_ E].
          apply Nat.eqb_eq in E. rewrite Forall_forall in Hpos. assert (Hj' : (j < length s)%nat) by lia. specialize (Hpos (nth j s 0%nat) (nth_In s 0%nat Hj')). lia. }
        rewrite E0, red_rd. eexists. split; [reflexivity|]. cbn [shp dt dat]. split; [reflexivity|].
        assert (Ws : length (dat (@reduce xr (rd s i) (fun _ => @max_list xr) acc)) = nth i s 0%nat).
        { pose proof (@reduce_wf xr (rd s i) (fun _ => @max_list xr) acc) as Wr. unfold twf in Wr. etransitivity; [exact Wr|]. cbn [reduce tab shp].
          nx. fold s. now rewrite reduced_rd, prodn_ex. }
        split; [unfold twf; cbn [dat shp prodn fold_right]; etransitivity; [exact Ws|lia]|].
        intros o V. pose proof (@tget_nth xr (@reduce xr (rd s i) (fun _ => @max_list xr) acc) (bidx (ex s i) o) (reduce_wf _ _ _)) as Ht.
        assert (Sh : shp (@reduce xr (rd s i) (fun _ => @max_list xr) acc) = ex s i) by (cbn [reduce tab shp]; nx; fold s; apply reduced_rd).
        nx. rewrite Sh, ravel_ex in Ht by assumption. etransitivity; [apply Ht; apply (sub_bidx_valid s); [apply ex_sub|assumption]|]. f_equal.
        rewrite <- reduced_rd, bidx_reduced by (try apply rd_length; assumption).
        rewrite tget_reduce by (nx; fold s; apply proj_valid; [apply rd_length|assumption]). nx. fold s.
        rewrite rd_fiber by assumption. unfold axis_max. apply max_list_val. rewrite map_map. apply map_ext_in.
        intros o' Ho'. apply filter_In in Ho' as [Ho' _]. apply In_indices in Ho'. now apply Va. }
    assert (HM : forall l, (forall i, In i l -> (i < length s)%nat) -> exists vs, mapM (@sm3_new_mu xr acc) l = Ok vs /\
       Forall2 (fun i v => shp v = [nth i s 0%nat] /\ twf v /\
          forall o, valid s o -> nth_error (dat v) (nth i o 0%nat) = Some (Fin (axis_max s A i (nth i o 0%nat)))) l vs).
    { induction l as [|i l IH]; intros Hl; [exists []; split; [reflexivity|constructor]|].
      destruct (Hmu i) as (v & Ev & Hv); [apply Hl; now left|]. destruct IH as (vs & Evs & Hvs); [intros; apply Hl; now right|].
      exists (v :: vs). cbn [mapM]. rewrite Ev. cbn [rbind]. rewrite Evs. split; [reflexivity|]. constructor; assumption. }
    destruct (HM (seq 0 (length s))) as (vs & Evs & Hvs); [intros i Hi; apply in_seq in Hi; lia|].
    nx. rewrite Evs. cbn [rbind]. eexists. split; [reflexivity|]. exists KList, vs. split; [reflexivity|].
    assert (L : length (seq 0 (length s)) = length vs) by (clear - Hvs; induction Hvs; cbn; congruence). rewrite seq_length in L. split; [now symmetry|].
    intros i v Ei. assert (Hi : (i < length s)%nat) by (rewrite L; apply nth_error_Some; congruence).
    assert (Ej : nth_error (seq 0 (length s)) i = Some i).
    { rewrite nth_error_nth' with (d := 0%nat) by (rewrite seq_length; lia). now rewrite seq_nth by lia. }
    clear - Hvs Ei Ej. revert Hvs Ei Ej. generalize (seq 0 (length s)) as l. generalize i at 1 2 as k. intros k l Hvs. revert k.
    induction Hvs as [|a b l m Hab _ IH]; intros [|k]; cbn; try easy.
    - intros [= <-] [= <-]. exact Hab.
    - apply IH.
  Qed.
End Leaf.

(** ** One step on a leaf, and on a tree of leaves *)
Lemma tzip_join {A B Z} (u : Z -> A) (v : Z -> tree B) (z : tree Z) :
  tzip (tmap u z) (tjoin (tmap v z)) = Ok (tmap (fun e => (u e, v e)) z).
Proof.
  induction z as [a|k ts IH] using tree_ind'; cbn; [reflexivity|]. rewrite kind_eqb_refl.
  match goal with |- rmap _ ?X = _ => enough (X = Ok (map (tmap (fun e => (u e, v e))) ts)) as -> by reflexivity end.
  induction ts as [|x ts IHl]; cbn; [reflexivity|].
  inversion IH as [|? ? Hx Ht]; subst. rewrite Hx. cbn. now rewrite IHl.
Qed.
Lemma tmm2s_join {A B C Z} (f : A -> tree B -> result C) (u : Z -> A) (v : Z -> tree B) (z : tree Z) :
  tmm2s f (tmap u z) (tjoin (tmap v z)) = tmapM (fun e => f (u e) (v e)) z.
Proof. unfold tmm2s. rewrite tzip_join. cbn [rbind]. now rewrite tmapM_tmap. Qed.

Lemma rbind_step {A B} (e : result A) (k : A -> result B) x r : e = Ok x -> k x = r -> rbind e k = r.
Proof. now intros -> <-. Qed.
Section Step.
  Context `{P : Platform}.
  Notation xr := (XROps P).
  Definition up_fac (eps a : R) : R := if Rlt_dec 0 a then / sqrt (a + eps) else 0.
  Definition arr_ok (s : list nat) (N : list nat -> R) (t : gt XR) : Prop :=
    shp t = s /\ twf t /\ forall o, valid s o -> @tget xr t o = Fin (N o).
  Record sm3r := mkR { r_m1 : tree (gt XR); r_acc : gt XR; r_up : gt XR; r_nu : gt XR; r_mu : tree (gt XR) }.
  Definition leaf_step (b1 b2 eps : XR) (g : gt XR) (mu : tree (gt XR)) (nu : gt XR) : result sm3r :=
    let* m1 := @sm3_expand xr g mu in
    let* acc := @sm3_new_accum xr b2 g m1 in
    let* up := @bin xr (@fmul xr) g (@inv_sqrt_pos xr eps acc) in
    let* nu' := @update_moment_leaf xr b1 1 up nu in
    let* mu' := @sm3_mus xr acc in
    Ok (mkR m1 acc up nu' mu').

  Lemma bin_same op (x y : gt XR) s fx fy f : arr_ok s fx x -> arr_ok s fy y ->
    (forall a b, op (promote (dt x) (dt y)) (Fin a) (Fin b) = Fin (f a b)) ->
    exists z, @bin xr op x y = Ok z /\ arr_ok s (fun o => f (fx o) (fy o)) z.
  Proof.
    intros (Sx & Wx & Vx) (Sy & Wy & Vy) Hop.
    destruct (@bin_sub xr op x y s) as (z & Ez & _ & Wz & _ & Hsz & Vz); auto; nx; rewrite ?Sx, ?Sy; try apply sub_refl.
    assert (Sz : shp z = s) by (apply Hsz; now left). exists z. split; [exact Ez|]. split; [exact Sz|]. split; [exact Wz|].
    intros o V. specialize (Vz o V). cbn zeta in Vz. nx. rewrite Sx, Sy, Sz, bidx_same, !xconv, Vx, Vy in Vz by assumption. rewrite Vz. apply Hop.
  Qed.
  Lemma emap_ok (f : fdt -> XR -> XR) (x : gt XR) s fx h : arr_ok s fx x -> (forall d o, valid s o -> f d (Fin (fx o)) = Fin (h o)) ->
    arr_ok s h (emap f x).
  Proof.
    intros (Sx & Wx & Vx) Hf. split; [exact Sx|]. split; [now apply emap_wf|].
    intros o V. rewrite (@tget_emap_gen xr) by (nx; rewrite ?Sx; assumption). rewrite (Vx o V). auto.
  Qed.
  Lemma arr_ok_ext s N N' t : (forall o, valid s o -> N o = N' o) -> arr_ok s N t -> arr_ok s N' t.
  Proof. intros H (S1 & W & V). split; [exact S1|]. split; [exact W|]. intros o Vo. rewrite (V o Vo). f_equal. auto. Qed.
  Lemma mu_ok_ext s N N' t : (forall o, valid s o -> N o = N' o) -> mu_ok s N t -> mu_ok s N' t.
  Proof.
    intros H (k & vs & E & L & Hv). exists k, vs. split; [exact E|]. split; [exact L|]. intros i v Ei. destruct (Hv i v Ei) as (S1 & W & V).
    split; [exact S1|]. split; [exact W|]. intros o Vo. rewrite (V o Vo). do 2 f_equal. unfold axis_max. f_equal. apply map_ext_in.
    intros o' Ho'. apply filter_In in Ho' as [Ho' _]. apply H. now apply In_indices.
  Qed.

  Lemma leaf_step_ok b1 b2 eps (g : gt XR) A N mu nu : 0 <= eps -> twf g -> Forall isfin (dat g) -> shp g <> [] -> Forall (fun n => (0 < n)%nat) (shp g) ->
    mu_ok (shp g) A mu -> arr_ok (shp g) N nu ->
    exists r, leaf_step (Fin b1) (Fin b2) (Fin eps) g mu nu = Ok r /\
      mu_ok (shp g) (next_acc b2 (shp g) A (rget g)) (r_mu r) /\
      arr_ok (shp g) (fun o => (1 - b1) * (rget g o * up_fac eps (next_acc b2 (shp g) A (rget g) o)) + b1 * N o) (r_nu r).
  Proof.
    intros He Wg Fg Hs Hpos Hmu Hnu.
    destruct (expand_val g A mu Hmu) as (xs & E1 & Hxs).
    destruct (accum_val g b2 A xs Wg Fg Hs Hxs) as (acc & E2 & Sa & Wa & Va).
    set (A' := next_acc b2 (shp g) A (rget g)) in *.
    assert (Hg : arr_ok (shp g) (rget g) g) by (split; [reflexivity|]; split; [exact Wg|]; intros; now apply fin_tget).
    assert (Ha : arr_ok (shp g) A' acc) by (split; auto).
    assert (Hi : arr_ok (shp g) (fun o => up_fac eps (A' o)) (@inv_sqrt_pos xr (Fin eps) acc)).
    { unfold inv_sqrt_pos. eapply emap_ok; [exact Ha|]. intros d o V. change (@fcast xr d (@fzero xr)) with (@fzero xr). rewrite (@f0 P). unfold up_fac.
      cbn [fcast flt frsqrt fadd XROps]. destruct (Rlt_dec 0 (A' o)) as [H|H].
      - assert (E : xlt (Fin 0) (Fin (A' o)) = true) by now apply xlt_fin. rewrite E, xadd_fin. apply xrsqrt_fin. lra.
      - assert (E : xlt (Fin 0) (Fin (A' o)) = false) by (apply xlt_fin_f; lra). now rewrite E. }
    destruct (bin_same (@fmul xr) g _ (shp g) _ _ Rmult Hg Hi) as (up & E3 & Hup); [reflexivity|].
    destruct (bin_same (@fadd xr) (@sl xr (@fmul xr) (@py1m xr (Fin b1)) (@ipow xr 1 up)) (@sl xr (@fmul xr) (Fin b1) nu) (shp g)
      (fun o => (1 - b1) * (rget g o * up_fac eps (A' o))) (fun o => b1 * N o) Rplus) as (nu' & E4 & Hnu').
    { unfold sl. rewrite xpy1m. eapply emap_ok with (fx := fun o => rget g o * up_fac eps (A' o)); [|reflexivity]. exact Hup. }
    { unfold sl. eapply emap_ok; [exact Hnu|]. reflexivity. }
    { reflexivity. }
    destruct (mus_val acc A' Wa) as (mu' & E5 & Hmu'); [nx; now rewrite Sa|nx; now rewrite Sa|intros o V; apply Va; nx; now rewrite <- Sa|].
    exists (mkR (Node KList (map Leaf xs)) acc up nu' mu'). split.
    { unfold leaf_step. eapply rbind_step; [exact E1|]. eapply rbind_step; [exact E2|]. eapply rbind_step; [exact E3|].
      eapply rbind_step; [exact E4|]. eapply rbind_step; [exact E5|]. reflexivity. } cbn [r_mu r_nu]. nx. rewrite Sa in Hmu'. split; [exact Hmu'|exact Hnu'].
  Qed.

  Lemma sm3_update_step b1 b2 eps (w : tree (gt XR * (tree (gt XR) * gt XR))) (x : tree sm3r) par :
    tmapM (fun e => leaf_step b1 b2 eps (fst e) (fst (snd e)) (snd (snd e))) w = Ok x ->
    update (@scale_by_sm3 xr b1 b2 eps) (tmap fst w)
      (SNode NSM3 [STree (tjoin (tmap (fun e => fst (snd e)) w)); STree (tmap (fun e => snd (snd e)) w)]) par =
    Ok (tmap r_nu x, SNode NSM3 [STree (tjoin (tmap r_mu x)); STree (tmap r_nu x)]).
  Proof.
    intros H. apply tmapM_Ok in H as (v & <- & <- & HF). rewrite Forall_forall in HF.
    rewrite !tmap_tmap. cbn [update scale_by_sm3].
    assert (Hs : forall e, In e (leaves v) -> exists m1 acc up nu' mu',
       @sm3_expand xr (fst (fst e)) (fst (snd (fst e))) = Ok m1 /\ @sm3_new_accum xr b2 (fst (fst e)) m1 = Ok acc /\
       @bin xr (@fmul xr) (fst (fst e)) (@inv_sqrt_pos xr eps acc) = Ok up /\ @update_moment_leaf xr b1 1 up (snd (snd (fst e))) = Ok nu' /\
       @sm3_mus xr acc = Ok mu' /\ snd e = mkR m1 acc up nu' mu').
    { intros e He. specialize (HF e He). unfold leaf_step in HF.
      apply rbind_Ok in HF as (m1 & E1 & HF). apply rbind_Ok in HF as (acc & E2 & HF). apply rbind_Ok in HF as (up & E3 & HF).
      apply rbind_Ok in HF as (nu' & E4 & HF). apply rbind_Ok in HF as (mu' & E5 & HF). injection HF as HF.
      exists m1, acc, up, nu', mu'. rewrite <- HF. auto 10. }
    rewrite (@tmm2s_join _ _ _ _ (@sm3_expand xr)).
    rewrite (tmapM_ext _ (fun e => Ok (r_m1 (snd e)))); [|intros e He; destruct (Hs e He) as (? & ? & ? & ? & ? & E1 & E2 & E3 & E4 & E5 & Ee); rewrite Ee; exact E1].
    rewrite tmapM_ok. cbn [rbind].
    rewrite (@tmm2s_join _ _ _ _ (@sm3_new_accum xr b2)).
    rewrite (tmapM_ext _ (fun e => Ok (r_acc (snd e)))); [|intros e He; destruct (Hs e He) as (? & ? & ? & ? & ? & E1 & E2 & E3 & E4 & E5 & Ee); rewrite Ee; exact E2].
    rewrite tmapM_ok. cbn [rbind]. rewrite tmap_tmap.
    rewrite (@tmm2_same _ _ _ _ (@bin xr (@fmul xr))).
    rewrite (tmapM_ext _ (fun e => Ok (r_up (snd e)))); [|intros e He; destruct (Hs e He) as (? & ? & ? & ? & ? & E1 & E2 & E3 & E4 & E5 & Ee); rewrite Ee; exact E3].
    rewrite tmapM_ok. cbn [rbind]. unfold update_moment.
    rewrite (@tmm2_same _ _ _ _ (@update_moment_leaf xr b1 1)).
    rewrite (tmapM_ext _ (fun e => Ok (r_nu (snd e)))); [|intros e He; destruct (Hs e He) as (? & ? & ? & ? & ? & E1 & E2 & E3 & E4 & E5 & Ee); rewrite Ee; exact E4].
    rewrite tmapM_ok. cbn [rbind]. rewrite tmapM_tmap.
    rewrite (tmapM_ext _ (fun e => Ok (r_mu (snd e)))); [|intros e He; destruct (Hs e He) as (? & ? & ? & ? & ? & E1 & E2 & E3 & E4 & E5 & Ee); rewrite Ee; exact E5].
    rewrite tmapM_ok. reflexivity.
  Qed.
End Step.

(** ** The loop *)
(** Gradient of step i at index o of leaf j of a history. *)
Definition hget `{P : Platform} (H : list (tree tensor * option (tree tensor))) (j i : nat) (o : list nat) : R :=
  match nth_error H i with
  | Some h => match nth_error (leaves (fst h)) j with Some t => rget t o | None => 0 end
  | None => 0
  end.
(** Trees with the structure and shapes of [p], all elements finite. *)
Definition grads_for (p : tree (gt XR)) (u : tree (gt XR)) : Prop := tmap shp u = tmap shp p /\ trwf u /\ finite_tree u.

Section Loop.
  Context `{P : Platform}.
  Notation xr := (XROps P).
  Definition accP (b2 : R) (s : list nat) (G : nat -> list nat -> R) (n : nat) (o : list nat) : R :=
    match n with O => 0 | S m => sm3_acc b2 s G m o end.
  Definition nuP (b1 b2 eps : R) (s : list nat) (G : nat -> list nat -> R) (n : nat) (o : list nat) : R :=
    match n with O => 0 | S m => ema_of b1 0 (fun i => sm3_up b2 eps s G i o) m end.
  Lemma cover_min_zero s o : s <> [] -> cover_min s (fun _ => 0) o = 0.
  Proof.
    intros Hs. unfold cover_min. destruct s as [|n s]; [easy|]. cbn [length seq map rminl].
    rewrite axis_max_zero. assert (E : forall l, (forall x, In x l -> x = 0) -> fold_left Rmin l 0 = 0).
    { induction l as [|x l IH]; intros Hl; cbn; [reflexivity|]. rewrite (Hl x) by now left. rewrite Rmin_left by lra. apply IH. intros; apply Hl; now right. }
    apply E. intros x Hx. apply in_map_iff in Hx as (k & <- & _). apply axis_max_zero.
  Qed.
  Lemma cover_min_ext s A B o : (forall o', valid s o' -> A o' = B o') -> cover_min s A o = cover_min s B o.
  Proof.
    intros H. unfold cover_min. f_equal. apply map_ext. intros k. unfold axis_max. f_equal. apply map_ext_in. intros o' Ho'.
    apply filter_In in Ho' as [Ho' _]. apply H. now apply In_indices.
  Qed.
  Lemma accP_S b2 s G n o : s <> [] -> sm3_acc b2 s G n o = next_acc b2 s (accP b2 s G n) (G n) o.
  Proof.
    intros Hs. unfold next_acc, c0. destruct n as [|n]; cbn [sm3_acc accP]; [rewrite (cover_min_ext s (accP b2 s G 0) (fun _ => 0)) by reflexivity; now rewrite cover_min_zero|].
    reflexivity.
  Qed.
  Lemma up_eq b2 eps s G n o : sm3_up b2 eps s G n o = G n o * up_fac eps (sm3_acc b2 s G n o).
  Proof. unfold sm3_up, up_fac. destruct (Rlt_dec _ _); [reflexivity|ring]. Qed.
  Lemma nuP_S b1 b2 eps s G n o : nuP b1 b2 eps s G (S n) o = (1 - b1) * (G n o * up_fac eps (sm3_acc b2 s G n o)) + b1 * nuP b1 b2 eps s G n o.
  Proof. cbn [nuP]. destruct n as [|n]; [rewrite ema_of_0|rewrite ema_of_S]; now rewrite up_eq. Qed.

  Definition st_of (z : tree (tree (gt XR) * gt XR)) : @state xr := SNode NSM3 [STree (tjoin (tmap fst z)); STree (tmap snd z)].
  Definition inv b1 b2 eps (p : tree (gt XR)) G n (z : tree (tree (gt XR) * gt XR)) : Prop :=
    tdef z = tdef p /\ forall j l e, nth_error (leaves p) j = Some l -> nth_error (leaves z) j = Some e ->
      mu_ok (shp l) (accP b2 (shp l) (G j) n) (fst e) /\ arr_ok (shp l) (nuP b1 b2 eps (shp l) (G j) n) (snd e).

  Lemma nth_of {A B} (x : tree A) (y : tree B) j a : tdef x = tdef y -> nth_error (leaves x) j = Some a -> exists b, nth_error (leaves y) j = Some b.
  Proof.
    intros E Ha. assert (L : length (leaves x) = length (leaves y)).
    { rewrite <- (map_length (fun _ => tt) (leaves x)), <- (map_length (fun _ => tt) (leaves y)), <- !leaves_tmap. unfold tdef in E. now rewrite E. }
    destruct (nth_error (leaves y) j) eqn:Ey; [eauto|]. apply nth_error_None in Ey. assert (nth_error (leaves x) j <> None) by congruence.
    apply nth_error_Some in H. lia.
  Qed.
  Lemma tdef_shp {A B} (x : tree (gt A)) (y : tree (gt B)) : tmap shp x = tmap shp y -> tdef x = tdef y.
  Proof. intros E. rewrite <- (tdef_tmap shp x), <- (tdef_tmap shp y). now rewrite E. Qed.
  Lemma shp_nth {A B} (x : tree (gt A)) (y : tree (gt B)) j a b : tmap shp x = tmap shp y -> nth_error (leaves x) j = Some a -> nth_error (leaves y) j = Some b -> shp a = shp b.
  Proof.
    intros E Ha Hb. assert (H : nth_error (leaves (tmap shp x)) j = nth_error (leaves (tmap shp y)) j) by now rewrite E.
    rewrite !nth_error_leaves_tmap, Ha, Hb in H. now injection H.
  Qed.

  Lemma sm3_step b1 b2 eps p G n z u par : 0 <= eps -> Forall (fun l : gt XR => shp l <> [] /\ Forall (fun d => (0 < d)%nat) (shp l)) (leaves p) ->
    grads_for p u -> (forall j t o, nth_error (leaves u) j = Some t -> rget t o = G j n o) -> inv b1 b2 eps p G n z ->
    exists z', update (@scale_by_sm3 xr (Fin b1) (Fin b2) (Fin eps)) u (st_of z) par = Ok (tmap snd z', st_of z') /\ inv b1 b2 eps p G (S n) z'.
  Proof.
    intros He Hp (Su & Wu & Fu) HG (Tz & Hz).
    destruct (tree_pair_tdef u z) as (w & <- & <-); [now rewrite Tz; apply tdef_shp|].
    assert (HL : forall j e, nth_error (leaves w) j = Some e -> exists l r, nth_error (leaves p) j = Some l /\ shp (fst e) = shp l /\
       leaf_step (Fin b1) (Fin b2) (Fin eps) (fst e) (fst (snd e)) (snd (snd e)) = Ok r /\
       mu_ok (shp l) (accP b2 (shp l) (G j) (S n)) (r_mu r) /\ arr_ok (shp l) (nuP b1 b2 eps (shp l) (G j) (S n)) (r_nu r)).
    { intros j e Ej. destruct (nth_of w p j e) as (l & El); [rewrite <- (tdef_tmap snd w); exact Tz|exact Ej|].
      assert (Eu : nth_error (leaves (tmap fst w)) j = Some (fst e)) by now rewrite nth_error_leaves_tmap, Ej.
      assert (Sl : shp (fst e) = shp l) by exact (shp_nth _ _ j _ _ Su Eu El).
      destruct (Hz j l (snd e) El) as (Hmu & Hnu); [now rewrite nth_error_leaves_tmap, Ej|].
      rewrite Forall_forall in Hp. destruct (Hp l (nth_error_In _ _ El)) as (Hs & Hpos).
      assert (We : twf (fst e)) by exact (proj1 (Forall_forall _ _) Wu _ (nth_error_In _ _ Eu)).
      assert (Fe : Forall isfin (dat (fst e))) by (apply finite_leaves in Fu; rewrite Forall_forall in Fu; exact (Fu _ (nth_error_In _ _ Eu))).
      destruct (leaf_step_ok b1 b2 eps (fst e) (accP b2 (shp l) (G j) n) (nuP b1 b2 eps (shp l) (G j) n) (fst (snd e)) (snd (snd e))) as (r & Er & H1 & H2);
        try rewrite Sl; auto.
      rewrite Sl in H1, H2. exists l, r. split; [exact El|]. split; [first [exact Sl|reflexivity]|]. split; [exact Er|]. split.
      - eapply mu_ok_ext; [|exact H1]. intros o V. cbn [accP]. rewrite accP_S by assumption. unfold next_acc. now rewrite (HG j (fst e) o Eu).
      - eapply arr_ok_ext; [|exact H2]. intros o V. cbv beta. rewrite nuP_S, accP_S by assumption. unfold next_acc. now rewrite (HG j (fst e) o Eu). }
    destruct (tmapM_total (fun e => leaf_step (Fin b1) (Fin b2) (Fin eps) (fst e) (fst (snd e)) (snd (snd e))) w) as (x & Ex).
    { apply Forall_forall. intros e Hin. apply In_nth_error in Hin as (j & Ej). destruct (HL j e Ej) as (_ & r & _ & _ & Er & _). eauto. }
    exists (tmap (fun r => (r_mu r, r_nu r)) x). split.
    - unfold st_of. rewrite !tmap_tmap. cbn [fst snd]. exact (sm3_update_step (Fin b1) (Fin b2) (Fin eps) w x par Ex).
    - split; [rewrite tdef_tmap, (tmapM_tdef _ _ _ Ex), <- (tdef_tmap snd w); exact Tz|].
      apply tmapM_Ok in Ex as (v & Ev & <- & HF). subst w.
      intros j l e El Ee. rewrite tmap_tmap, nth_error_leaves_tmap in Ee. destruct (nth_error (leaves v) j) as [q|] eqn:Eq; [|discriminate]. injection Ee as <-.
      destruct (HL j (fst q)) as (l' & r & El' & _ & Er & H1 & H2); [now rewrite nth_error_leaves_tmap, Eq|].
      rewrite El in El'. injection El' as <-. rewrite Forall_forall in HF. rewrite (HF q (nth_error_In _ _ Eq)) in Er. injection Er as <-. auto.
  Qed.

  Lemma sm3_init_inv b1 b2 eps p G : exists z, init (@scale_by_sm3 xr (Fin b1) (Fin b2) (Fin eps)) p = Ok (st_of z) /\ inv b1 b2 eps p G 0 z.
  Proof.
    exists (tmap (fun t => (@zeros_for_dim xr t, @zeros_like xr t)) p). split.
    - cbn [init scale_by_sm3]. unfold st_of. now rewrite !tmap_tmap.
    - split; [apply tdef_tmap|]. intros j l e El Ee. rewrite nth_error_leaves_tmap in Ee; nx; rewrite El in Ee. injection Ee as <-. cbn [fst snd]. split; [apply mu_ok_init|].
      split; [reflexivity|]. split; [apply (@full_wf xr)|]. intros o V. unfold tget, zeros_like, full_like, full. cbn [shp dat nuP].
      change (@fcast xr (dt l) (@fzero xr)) with (@fzero xr). rewrite (@f0 P). apply nth_repeat.
  Qed.

  Lemma sm3_run b1 b2 eps p H G : 0 <= eps -> Forall (fun l : gt XR => shp l <> [] /\ Forall (fun d => (0 < d)%nat) (shp l)) (leaves p) ->
    forall n z, (forall i h, nth_error H i = Some h -> grads_for p (fst h) /\ forall j t o, nth_error (leaves (fst h)) j = Some t -> rget t o = G j (n + i)%nat o) ->
    inv b1 b2 eps p G n z -> exists outs s', run (@scale_by_sm3 xr (Fin b1) (Fin b2) (Fin eps)) (st_of z) H = Ok (outs, s') /\
      forall i out, nth_error outs i = Some out -> exists z', out = tmap snd z' /\ inv b1 b2 eps p G (S (n + i)) z'.
  Proof.
    intros He Hp. induction H as [|[u par] H IH]; intros n z Hh Hz.
    - exists [], (st_of z). split; [reflexivity|]. intros [|i]; discriminate.
    - destruct (Hh 0%nat (u, par) eq_refl) as (Hu & HG). cbn [fst] in *. rewrite Nat.add_0_r in HG.
      destruct (sm3_step b1 b2 eps p G n z u par He Hp Hu HG Hz) as (z' & Eu & Hz').
      destruct (IH (S n) z') as (outs & s' & Er & Ho); [|exact Hz'|].
      { intros i h Ei. replace (S n + i)%nat with (n + S i)%nat by lia. now apply Hh. }
      exists (tmap snd z' :: outs), s'. split.
      + cbn [run]. eapply rbind_step; [exact Eu|]. cbv beta iota. eapply rbind_step; [exact Er|]. reflexivity.
      + intros [|i] out Eo; cbn in Eo.
        * injection Eo as <-. exists z'. rewrite Nat.add_0_r. auto.
        * replace (n + S i)%nat with (S n + i)%nat by lia. now apply Ho.
  Qed.
End Loop.

(*@ C28_sm3 : for every b1, b2, eps >= 0, every tree of parameters of rank >= 1 without empty axes and every history of finite gradients of its shapes, every update succeeds and emits arrays of those shapes whose value at index o is the exponential moving average (decay b1) of the SM3-preconditioned gradients: g / sqrt(a + eps) where a > 0 and 0 otherwise, a being the cover accumulator [sm3_acc] of the specification. *)
Lemma sm3_emits : forall `{P : Platform} (b1 b2 eps : R) (p : tree tensor) (H : list (tree tensor * option (tree tensor))),
  0 <= eps -> Forall (fun l => shp l <> [] /\ Forall (fun d => (0 < d)%nat) (shp l)) (leaves p) ->
  Forall (fun h => grads_for p (fst h)) H ->
  exists outs, trains (scale_by_sm3 (Fin b1) (Fin b2) (Fin eps)) p H outs /\ length outs = length H /\
    forall n j l o, (n < length H)%nat -> nth_error (leaves p) j = Some l -> valid (shp l) o ->
      exists out t, nth_error outs n = Some out /\ tdef out = tdef p /\ nth_error (leaves out) j = Some t /\ shp t = shp l /\
        tget t o = Fin (ema_of b1 0 (fun i => sm3_up b2 eps (shp l) (hget H j) i o) n).
Proof.
  intros P b1 b2 eps p H He Hp HH.
  destruct (sm3_init_inv b1 b2 eps p (hget H)) as (z & Ei & Hz).
  destruct (sm3_run b1 b2 eps p H (hget H) He Hp 0 z) as (outs & s' & Er & Ho).
  { intros i h Eh. split; [rewrite Forall_forall in HH; apply HH; eapply nth_error_In; eauto|].
    intros j t o Et. cbn [Nat.add]. unfold hget. nx. rewrite Eh, Et. reflexivity. }
  { exact Hz. }
  exists outs. split; [exists (st_of z), s'; auto|]. pose proof (run_length _ _ _ _ _ Er) as L. split; [exact L|].
  intros n j l o Hn El V. rewrite <- L in Hn. destruct (nth_error outs n) as [out|] eqn:Eo; [|apply nth_error_None in Eo; nx; lia].
  destruct (Ho n out Eo) as (z' & -> & Tz & Hz'). destruct (nth_of p z' j l) as (e & Ee); [now symmetry|exact El|].
  destruct (Hz' j l e El Ee) as (_ & Sn & Wn & Vn). exists (tmap snd z'), (snd e). split; [reflexivity|]. split; [now rewrite tdef_tmap|].
  split; [now rewrite nth_error_leaves_tmap, Ee|]. split; [exact Sn|]. exact (Vn o V).
Qed.

(*@ C28_sm3_dominates : with b2 = 1 the accumulator of the specification is, at every index of an array of rank >= 1, at least the sum of all squared gradients so far at that index, grows at every step by at least the new squared gradient, and the preconditioned gradient is at most 1 in absolute value (hence every emitted value, by [C28_sm3_bounded]). *)
Lemma sm3_dom : forall (s : list nat) (G : nat -> list nat -> R) (eps : R) (n : nat) (o : list nat), s <> [] -> valid s o -> 0 <= eps ->
  sum_f_R0 (fun i => G i o * G i o) n <= sm3_acc 1 s G n o /\
  sm3_acc 1 s G n o + G (S n) o * G (S n) o <= sm3_acc 1 s G (S n) o /\
  Rabs (sm3_up 1 eps s G n o) <= 1.
Proof.
  intros s G eps n o Hs V He. split; [now apply sm3_dominates|]. split; [now apply sm3_acc_mono|now apply sm3_up_bound].
Qed.

(*@ C28_sm3_bounded : with b2 = 1 and 0 <= b1 <= 1, every value emitted by scale_by_sm3 is at most 1 in absolute value, whatever the gradients. *)
Lemma sm3_bounded : forall `{P : Platform} (b1 eps : R) (p : tree tensor) (H : list (tree tensor * option (tree tensor))),
  0 <= b1 <= 1 -> 0 <= eps -> Forall (fun l => shp l <> [] /\ Forall (fun d => (0 < d)%nat) (shp l)) (leaves p) ->
  Forall (fun h => grads_for p (fst h)) H ->
  exists outs, trains (scale_by_sm3 (Fin b1) (Fin 1) (Fin eps)) p H outs /\ length outs = length H /\
    forall n j l o, (n < length H)%nat -> nth_error (leaves p) j = Some l -> valid (shp l) o ->
      exists out t v, nth_error outs n = Some out /\ nth_error (leaves out) j = Some t /\ tget t o = Fin v /\ Rabs v <= 1.
Proof.
  intros P b1 eps p H Hb He Hp HH. destruct (sm3_emits b1 1 eps p H He Hp HH) as (outs & Ht & L & Ho).
  exists outs. split; [exact Ht|]. split; [exact L|]. intros n j l o Hn El V. destruct (Ho n j l o Hn El V) as (out & t & E1 & _ & E2 & _ & E3).
  exists out, t, (ema_of b1 0 (fun i => sm3_up 1 eps (shp l) (hget H j) i o) n). split; [exact E1|]. split; [exact E2|]. split; [exact E3|].
  rewrite Forall_forall in Hp. destruct (Hp l (nth_error_In _ _ El)) as (Hs & _).
  clear - Hb He Hs V. induction n as [|n IH]; [rewrite ema_of_0|rewrite ema_of_S]; eapply Rle_trans; try apply Rabs_triang; rewrite !Rabs_mult, (Rabs_right (1 - b1)), ?(Rabs_right b1) by lra.
  - pose proof (sm3_up_bound eps (shp l) (hget H j) 0 o He Hs V). rewrite Rabs_R0. nra.
  - pose proof (sm3_up_bound eps (shp l) (hget H j) (S n) o He Hs V). nra.
Qed.

(** rank >= 1 leaves never fail in the accumulator stage of the first update, in any arithmetic *)
Lemma sm3_expand_zeros `{O : Ops} (g l : tensor) : shp g = shp l ->
  exists xs, sm3_expand g (zeros_for_dim l) = Ok (Node KList (map Leaf xs)) /\ length xs = length (shp g) /\ Forall (fun x => sub (shp g) (shp x) /\ twf x) xs.
Proof.
  intros E. unfold sm3_expand, zeros_for_dim. rewrite <- E. set (s := shp g).
  assert (G : forall n m, (n + m <= length s)%nat -> exists xs,
    mapM (fun i => let* x := list_item (Node KList (map (fun k => Leaf (full defdt [k] fzero)) s)) i in reshape (expanded_shape s i) x) (seq n m) = Ok xs /\
    length xs = m /\ Forall (fun x => sub s (shp x) /\ twf x) xs).
  { intros n m; revert n; induction m as [|m IH]; intros n Hn; cbn [seq mapM]; [exists []; auto|].
    destruct (nth_error s n) as [k|] eqn:Ek; [|apply nth_error_None in Ek; lia].
    assert (Ei : list_item (Node KList (map (fun k => Leaf (full defdt [k] fzero)) s)) n = Ok (full defdt [k] fzero)).
    { unfold list_item. rewrite nth_error_map, Ek. reflexivity. }
    rewrite Ei. cbn [rbind]. unfold reshape at 1. rewrite expanded_ex, prodn_ex by lia. rewrite (nth_error_nth _ _ 0%nat Ek).
    cbn [full shp prodn fold_right]. rewrite Nat.mul_1_r, Nat.eqb_refl. cbn [rbind].
    destruct (IH (S n)) as (xs & -> & L & HF); [lia|]. cbn [rbind]. eexists. split; [reflexivity|]. split; [cbn; lia|]. constructor; [|exact HF].
    cbn [shp]. split; [apply ex_sub|]. unfold twf. cbn [dat shp]. rewrite prodn_ex by lia. rewrite (nth_error_nth _ _ 0%nat Ek).
    unfold full. cbn [dat]. rewrite repeat_length. cbn. lia. }
  destruct (G 0%nat (length s)) as (xs & E1 & L & HF); [lia|]. exists xs. rewrite E1. auto.
Qed.
Lemma minimum_ok `{O : Ops} s (l : list tensor) : forall m, sub s (shp m) -> twf m -> Forall (fun x => sub s (shp x) /\ twf x) l ->
  exists z, minimum_from m (map Leaf l) = Ok z /\ sub s (shp z) /\ twf z.
Proof.
  induction l as [|x l IH]; intros m Hm Wm HF; cbn [map minimum_from]; [eauto|].
  inversion HF as [|? ? (Hx & Wx) HF']; subst. cbn [as_leaf rbind].
  destruct (bin_sub (fun _ => fmin) m x s Hm Hx Wm Wx) as (z & -> & Hz & Wz & _). cbn [rbind]. now apply IH.
Qed.
Lemma sm3_accum_ok `{O : Ops} b2 (g : tensor) xs : twf g -> shp g <> [] -> length xs = length (shp g) -> Forall (fun x => sub (shp g) (shp x) /\ twf x) xs ->
  exists acc, sm3_new_accum b2 g (Node KList (map Leaf xs)) = Ok acc.
Proof.
  intros Wg Hs L HF. unfold sm3_new_accum. destruct xs as [|x xs]; [destruct (shp g); easy|]. inversion HF as [|? ? (Hx & Wx) HF']; subst.
  assert (D : forall m, sub (shp g) (shp m) -> twf m -> exists acc, bin fadd (sl fmul (if feqb b2 fone then fone else py1m b2) (tsquare g)) (sl fmul b2 m) = Ok acc).
  { intros m Hm Wm. destruct (bin_sub fadd (sl fmul (if feqb b2 fone then fone else py1m b2) (tsquare g)) (sl fmul b2 m) (shp g)) as (z & E & _); eauto.
    - apply sub_refl.
    - unfold sl, tsquare, un. now apply emap_wf, emap_wf.
    - unfold sl. now apply emap_wf. }
  destruct (Nat.ltb _ 2).
  - cbn [list_item map nth_error as_leaf rbind]. now apply D.
  - cbn [map as_leaf rbind]. destruct (minimum_ok _ xs x Hx Wx HF') as (m & -> & Hm & Wm). cbn [rbind]. now apply D.
Qed.
(*@ C28_sm3_scalar_raises : in any arithmetic, for every tree of parameters that contains a rank-0 array, wherever it stands, and every tree of gradients of the parameters' shapes: init succeeds and the first update raises IndexError. *)
Lemma sm3_scalar : forall `{O : Ops} (b1 b2 eps : F) (p u : tree tensor) par, tmap (fun t => shp t) u = tmap (fun t => shp t) p -> trwf u -> Exists (fun t => shp t = []) (leaves p) ->
  exists st, init (scale_by_sm3 b1 b2 eps) p = Ok st /\ update (scale_by_sm3 b1 b2 eps) u st par = Err EIndex.
Proof.
  intros O b1 b2 eps p u par S W HX. eexists. split; [reflexivity|]. cbn [update scale_by_sm3].
  assert (T : tdef u = tdef p) by (rewrite <- (tdef_tmap (fun t => shp t) u), <- (tdef_tmap (fun t => shp t) p); now rewrite S).
  destruct (tree_pair_tdef u p T) as (w & Eu & Ep).
  assert (HS : forall e, In e (leaves w) -> shp (fst e) = shp (snd e)).
  { intros e Hin. apply In_nth_error in Hin as (j & Ej).
    assert (A : nth_error (leaves (tmap (fun t => shp t) u)) j = nth_error (leaves (tmap (fun t => shp t) p)) j) by now rewrite S.
    rewrite <- Eu, <- Ep, !tmap_tmap, !nth_error_leaves_tmap, Ej in A. now injection A. }
  assert (Wg : forall e, In e (leaves w) -> twf (fst e)).
  { intros e Hin. unfold trwf in W. rewrite Forall_forall in W. apply W. rewrite <- Eu, leaves_tmap. now apply in_map. }
  destruct (tree_choice (fun e m1 => sm3_expand (fst e) (zeros_for_dim (snd e)) = Ok m1 /\ (shp (fst e) = [] -> sm3_new_accum b2 (fst e) m1 = Err EIndex) /\
      (shp (fst e) <> [] -> exists acc, sm3_new_accum b2 (fst e) m1 = Ok acc)) w) as (z & Ez & Hz).
  { apply Forall_forall. intros e Hin. destruct (sm3_expand_zeros (fst e) (snd e) (HS e Hin)) as (xs & E1 & L & HF).
    exists (Node KList (map Leaf xs)). split; [exact E1|]. split.
    - intros E0. rewrite E0 in L. destruct xs; [|discriminate]. unfold sm3_new_accum. rewrite E0. reflexivity.
    - intros Hs. apply sm3_accum_ok; auto. }
  rewrite Forall_forall in Hz.
  assert (E1 : tmm2s sm3_expand u (tjoin (tmap zeros_for_dim p)) = Ok (tmap snd z)).
  { rewrite <- Eu, <- Ep, tmap_tmap, tmm2s_join. rewrite <- Ez, tmapM_tmap. rewrite (tmapM_ext _ (fun q => Ok (snd q))); [apply tmapM_ok|].
    intros q Hq. now apply Hz. }
  rewrite E1. cbn [rbind].
  assert (E2 : tmm2s (sm3_new_accum b2) u (tjoin (tmap snd z)) = tmapM (fun q => sm3_new_accum b2 (fst (fst q)) (snd q)) z).
  { rewrite <- Eu, <- Ez, tmap_tmap. apply tmm2s_join. }
  rewrite E2. destruct (tmapM _ z) as [x|e] eqn:Ex; cbn [rbind].
  - exfalso. apply tmapM_Ok in Ex as (v & Ev & _ & HF). rewrite Forall_forall in HF.
    apply Exists_exists in HX as (t & Ht & E0). rewrite <- Ep, <- Ez, <- Ev, !leaves_tmap in Ht. rewrite !map_map in Ht. apply in_map_iff in Ht as (q & <- & Hq).
    specialize (HF q Hq). assert (Hin : In (fst q) (leaves z)) by (rewrite <- Ev, leaves_tmap; now apply in_map).
    destruct (Hz _ Hin) as (_ & He & _). rewrite He in HF; [discriminate|].
    rewrite HS; [exact E0|]. rewrite <- Ez, leaves_tmap. now apply in_map.
  - apply tmapM_Err in Ex as (q & Hq & Eq). destruct (Hz q Hq) as (_ & He & Ho).
    destruct (list_eq_dec Nat.eq_dec (shp (fst (fst q))) []) as [E0|E0].
    + rewrite (He E0) in Eq. now injection Eq as <-.
    + destruct (Ho E0) as (acc & Ea). rewrite Ea in Eq. discriminate.
Qed.
(*@ex C28_sm3_scalar_example *)
Lemma sm3_scalar_ex : forall `{P : Platform}, exists st,
  init (scale_by_sm3 (Fin 0) (Fin 1) (Fin 1)) (Node KList [Leaf (mkT F32 [1%nat] [Fin 2]); Leaf (mkT F32 [] [Fin 1])]) = Ok st /\
  update (scale_by_sm3 (Fin 0) (Fin 1) (Fin 1)) (Node KList [Leaf (mkT F32 [1%nat] [Fin 3]); Leaf (mkT F32 [] [Fin 5])]) st None = Err EIndex.
Proof.
  intros P. apply (@sm3_scalar (XROps P)); [reflexivity|repeat constructor|]. right. left. reflexivity.
Qed.

(*@ C28_sm3_half_precision : a float16 or bfloat16 parameter does not keep its dtype: the very first emitted update of a bfloat16 vector is of the wider default dtype. *)
Lemma sm3_bf16 : forall `{P : Platform} (b1 b2 eps : XR) (g : R), exists out,
  trains (scale_by_sm3 b1 b2 eps) (Leaf (mkT BF16 [1%nat] [Fin 0])) [(Leaf (mkT BF16 [1%nat] [Fin g]), None)] [Leaf out] /\
  dt out = promote BF16 defdt /\ dt out <> BF16.
Proof.
  intros P b1 b2 eps g. eexists. split; [eexists; eexists; split; reflexivity|]. cbn [dt]. 
  unfold defdt. destruct (@x64 (XROps P)); split; try reflexivity; discriminate.
Qed.

(*@ex C28_sm3_example *)
Lemma sm3_example : forall `{P : Platform}, 0 <= 1 <= 1 /\ Forall (fun l => shp l <> [] /\ Forall (fun d => (0 < d)%nat) (shp l)) (leaves ex_p) /\
  Forall (fun h => grads_for ex_p (fst h)) ex_H /\ valid [2%nat; 2%nat] [1%nat; 0%nat].
Proof.
  intros P. split; [lra|]. split; [repeat (constructor; try (split; [discriminate|repeat constructor]))|]. split; [|cbn; lia].
  repeat (constructor; try (split; [reflexivity|split; repeat constructor])).
  all: eexists; reflexivity.
Qed.
