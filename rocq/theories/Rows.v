(** Broadcasting and reductions along the last axis. *)
From Verif Require Export M_loss Bcast.
From Verif Require Import Spec.
From Coq Require Import List Psatz.
Import ListNotations.
Open Scope nat_scope.

(** The entry of [t] that meets position [o] of the result of a broadcast. *)
Definition bget `{O : Ops} (t : tensor) (o : list nat) : F := tget t (bidx (shp t) o).

Lemma valid_app s t i j : length i = length s -> valid (s ++ t) (i ++ j) <-> valid s i /\ valid t j.
Proof. revert i; induction s as [|n s IH]; intros [|k i] E; cbn in *; try discriminate; [tauto|]. injection E as E. rewrite (IH i E). tauto. Qed.
Lemma valid_snoc s n i : valid (s ++ [n]) i <-> exists o j, i = o ++ [j] /\ valid s o /\ j < n.
Proof.
  split.
  - intros V. pose proof (valid_length _ _ V) as E. rewrite app_length in E. cbn in E. destruct i as [|a i] using rev_ind; [cbn in E; lia|]. clear IHi. rewrite app_length in E. cbn in E.
    apply valid_app in V; [|lia]. cbn in V. exists i, a. tauto.
  - intros (o & j & -> & V & Hj). apply valid_app; [now apply valid_length|]. cbn. tauto.
Qed.
Lemma map2_app {A B C} (f : A -> B -> C) l l' m m' : length l = length m -> map2 f (l ++ l') (m ++ m') = map2 f l m ++ map2 f l' m'.
Proof. revert m; induction l as [|a l IH]; intros [|b m] E; cbn in *; try discriminate; [reflexivity|]. injection E as E. now rewrite IH. Qed.
Lemma bidx_snoc s n o j : length s <= length o -> bidx (s ++ [n]) (o ++ [j]) = bidx s o ++ [if n =? 1 then 0 else j].
Proof.
  intros E. unfold bidx. rewrite !app_length. cbn [length]. replace (length o + 1 - (length s + 1)) with (length o - length s) by lia.
  rewrite skipn_app. replace (length o - length s - length o) with 0 by lia. cbn [skipn]. rewrite map2_app; [reflexivity|]. rewrite skipn_length. lia.
Qed.
Lemma bdims_snoc s t u n m k : bdims s t = Some u -> bdim n m = Some k -> bdims (s ++ [n]) (t ++ [m]) = Some (u ++ [k]).
Proof.
  revert t u; induction s as [|a s IH]; intros [|b t] u E H; cbn in *; try discriminate; [injection E as <-; now rewrite H|].
  destruct (bdim a b); [|discriminate]. destruct (bdims s t) eqn:Es; [|discriminate]. injection E as <-. now rewrite (IH _ _ Es H).
Qed.
Lemma bshape_snoc s t u n m k : bshape s t = Some u -> bdim n m = Some k -> bshape (s ++ [n]) (t ++ [m]) = Some (u ++ [k]).
Proof.
  unfold bshape, padl. rewrite !app_length. cbn [length]. intros E H. replace (Nat.max (length s + 1) (length t + 1)) with (Nat.max (length s) (length t) + 1) by lia.
  replace (Nat.max (length s) (length t) + 1 - (length s + 1)) with (Nat.max (length s) (length t) - length s) by lia. replace (Nat.max (length s) (length t) + 1 - (length t + 1)) with (Nat.max (length s) (length t) - length t) by lia.
  rewrite !app_assoc. now apply bdims_snoc.
Qed.
Lemma bdims_length s t u : bdims s t = Some u -> length u = length s /\ length u = length t.
Proof.
  revert t u; induction s as [|a s IH]; intros [|b t] u E; cbn in *; try discriminate; [injection E as <-; auto|].
  destruct (bdim a b); [|discriminate]. destruct (bdims s t) eqn:Es; [|discriminate]. injection E as <-. cbn. destruct (IH _ _ Es). lia.
Qed.
Lemma bshape_length s t u : bshape s t = Some u -> length s <= length u /\ length t <= length u.
Proof. intros E. apply bdims_length in E as (E1 & E2). unfold padl in *. rewrite app_length, repeat_length in E1, E2. lia. Qed.
(** Index validity under broadcasting. *)
Lemma bdims_valid s t u o : bdims s t = Some u -> valid u o -> valid s (map2 (fun n i => if n =? 1 then 0 else i) s o) /\ valid t (map2 (fun n i => if n =? 1 then 0 else i) t o).
Proof.
  revert t u o; induction s as [|a s IH]; intros [|b t] u o E V; cbn in *; try discriminate; [injection E as <-; destruct o; [tauto|easy]|].
  destruct (bdim a b) as [c|] eqn:Ec; [|discriminate]. destruct (bdims s t) eqn:Es; [|discriminate]. injection E as <-. destruct o as [|i o]; [easy|]. destruct V as (Hi & V). destruct (IH _ _ o Es V) as (V1 & V2).
  cbn [map2 valid]. split; split; auto; unfold bdim in Ec; destruct (Nat.eqb_spec a b), (Nat.eqb_spec a 1), (Nat.eqb_spec b 1); try discriminate; injection Ec as <-; lia.
Qed.
Lemma map2_repeat1 n s o : length o = n + length s -> map2 (fun n i => if n =? 1 then 0 else i) (repeat 1 n ++ s) o = repeat 0 n ++ map2 (fun n i => if n =? 1 then 0 else i) s (skipn n o).
Proof. revert o; induction n as [|n IH]; intros o E; [reflexivity|]. destruct o as [|i o]; [discriminate|]. cbn in *. now rewrite IH by lia. Qed.
Lemma bshape_valid s t u o : bshape s t = Some u -> valid u o -> valid s (bidx s o) /\ valid t (bidx t o).
Proof.
  intros E V. pose proof (bshape_length _ _ _ E) as (L1 & L2). pose proof (valid_length _ _ V) as Lo. pose proof (bdims_length _ _ _ E) as (E1 & E2). unfold padl in E1, E2. rewrite app_length, repeat_length in E1, E2.
  destruct (bdims_valid _ _ _ o E V) as (V1 & V2). unfold padl in V1, V2.
  assert (G : forall n s, length o = n + length s -> valid (repeat 1 n ++ s) (map2 (fun n i => if n =? 1 then 0 else i) (repeat 1 n ++ s) o) -> valid s (bidx s o)).
  { clear. intros n s E. rewrite map2_repeat1 by exact E. intros V. apply valid_app in V; [|now rewrite !repeat_length]. unfold bidx. replace (length o - length s) with n by lia. tauto. }
  split; [apply (G (Nat.max (length s) (length t) - length s))|apply (G (Nat.max (length s) (length t) - length t))]; auto; lia.
Qed.
Lemma dims_broadcast_bdims a b : dims_broadcast a b = true -> bdims a b = Some b.
Proof.
  revert b; induction a as [|m a IH]; intros [|n b] E; cbn in *; try discriminate; [reflexivity|]. apply andb_prop in E as (E1 & E2). rewrite (IH _ E2). unfold bdim.
  destruct (Nat.eqb_spec m n); [now subst|]. cbn in E1. now rewrite E1.
Qed.
Lemma bdims_1_l n b : bdims (repeat 1 n) b = Some b \/ length b <> n.
Proof. revert b; induction n as [|n IH]; intros [|x b]; cbn; auto. destruct (IH b) as [E|E]; [|right; lia]. rewrite E. left. unfold bdim. destruct (Nat.eqb_spec 1 x); [now subst|reflexivity]. Qed.
Lemma bdims_app a b c a' b' c' : bdims a b = Some c -> bdims a' b' = Some c' -> bdims (a ++ a') (b ++ b') = Some (c ++ c').
Proof. revert b c; induction a as [|x a IH]; intros [|y b] c E H; cbn in *; try discriminate; [injection E as <-; exact H|]. destruct (bdim x y); [|discriminate]. destruct (bdims a b) eqn:Es; [|discriminate]. injection E as <-. now rewrite (IH _ _ Es H). Qed.
(** The assertion in the code is exactly the broadcasting rule of Spec.v. *)
Lemma dims_broadcast_iff a b : dims_broadcast a b = true <-> Forall2 (fun m n => m = n \/ m = 1) a b.
Proof.
  revert b; induction a as [|m a IH]; intros [|n b]; cbn [dims_broadcast]; split; intros H; try discriminate; try constructor; try (now inversion H).
  - apply andb_prop in H as (H & _). apply Bool.orb_prop in H as [H|H]; apply Nat.eqb_eq in H; auto.
  - apply IH. now apply andb_prop in H as (_ & H).
  - inversion H; subst. apply andb_true_intro. split; [|now apply IH]. destruct H3 as [->| ->]; rewrite ?Nat.eqb_refl; auto. apply Bool.orb_true_r.
Qed.
Lemma broadcasts_iff a b : broadcasts_to a b <-> assert_broadcastable a b = Ok tt.
Proof.
  unfold assert_broadcastable. split.
  - intros (pre & b' & -> & H). pose proof H as H0. apply dims_broadcast_iff in H. assert (L : length a = length b') by (clear H; induction H0; cbn; congruence). rewrite app_length. destruct (Nat.leb_spec (length a) (length pre + length b')); [|lia].
    replace (length pre + length b' - length a) with (length pre + 0) by lia. rewrite skipn_app, Nat.add_0_r, skipn_all, Nat.sub_diag. cbn [skipn app andb]. now rewrite H.
  - destruct (_ && _)%bool eqn:E; [|discriminate]. intros _. apply andb_prop in E as (_ & E). apply dims_broadcast_iff in E. exists (firstn (length b - length a) b), (skipn (length b - length a) b). split; [symmetry; apply firstn_skipn|exact E].
Qed.
Lemma bcast_ok a b : assert_broadcastable a b = Ok tt -> broadcasts_to a b.
Proof. apply broadcasts_iff. Qed.
Lemma assert_bshape a b : assert_broadcastable a b = Ok tt -> bshape a b = Some b.
Proof.
  unfold assert_broadcastable. destruct (Nat.leb_spec (length a) (length b)) as [L|]; [|discriminate]. cbn [andb]. destruct (dims_broadcast a _) eqn:E; [|discriminate]. intros _. apply dims_broadcast_bdims in E.
  unfold bshape, padl. rewrite Nat.max_r by exact L. rewrite Nat.sub_diag. cbn [repeat app]. rewrite <- (firstn_skipn (length b - length a) b) at 2 3. apply bdims_app; [|exact E].
  destruct (bdims_1_l (length b - length a) (firstn (length b - length a) b)) as [H|H]; [exact H|]. rewrite firstn_length in H. lia.
Qed.
Lemma removelast_snoc {A} (l : list A) x : removelast (l ++ [x]) = l.
Proof. rewrite removelast_app by discriminate. cbn. apply app_nil_r. Qed.
Lemma last_snoc {A} (l : list A) x d : last (l ++ [x]) d = x.
Proof. apply last_last. Qed.

Section Rows.
  Context `{O : Ops}.
  Lemma bin_elem op (a b : tensor) s : twf a -> twf b -> bshape (shp a) (shp b) = Some s -> let D := promote (dt a) (dt b) in
    exists r, bin op a b = Ok r /\ dt r = D /\ shp r = s /\ twf r /\ forall o, valid s o -> tget r o = op D (conv (dt a) D (bget a o)) (conv (dt b) D (bget b o)).
  Proof.
    intros Wa Wb E D. rewrite (bin_tab op a b s Wa Wb E). eexists. split; [reflexivity|]. split; [reflexivity|]. split; [reflexivity|]. split; [apply tab_wf|]. intros o V. now rewrite tget_tab.
  Qed.
  Lemma row_length (t : tensor) o : length (row t o) = last (shp t) 0.
  Proof. unfold row. now rewrite map_length, seq_length. Qed.
  Lemma last_keep_val f (t : tensor) B n : shp t = B ++ [n] -> exists k, last_keep f t = Ok k /\ dt k = dt t /\ shp k = B ++ [1] /\ twf k /\ forall o, valid B o -> tget k (o ++ [0]) = f (dt t) (row t o).
  Proof.
    intros E. unfold last_keep. rewrite E. destruct (B ++ [n]) as [|x0 l0] eqn:EB; [destruct B; discriminate|]. rewrite <- EB, removelast_snoc. eexists. split; [reflexivity|]. split; [reflexivity|]. split; [reflexivity|]. split; [apply tab_wf|]. intros o V.
    rewrite tget_tab; [now rewrite removelast_snoc|]. apply valid_snoc. exists o, 0. auto.
  Qed.
  Lemma last_drop_val f (t : tensor) B n : shp t = B ++ [n] -> exists k, last_drop f t = Ok k /\ dt k = dt t /\ shp k = B /\ twf k /\ forall o, valid B o -> tget k o = f (dt t) (row t o).
  Proof.
    intros E. unfold last_drop. rewrite E. destruct (B ++ [n]) as [|x0 l0] eqn:EB; [destruct B; discriminate|]. rewrite <- EB, removelast_snoc. eexists. split; [reflexivity|]. split; [reflexivity|]. split; [reflexivity|]. split; [apply tab_wf|]. intros o V. now rewrite tget_tab.
  Qed.
  (** A row operand k (keepdims) against t. *)
  Lemma bin_keep op (t k : tensor) B n : twf t -> twf k -> dt k = dt t -> shp t = B ++ [n] -> shp k = B ++ [1] ->
    exists r, bin op t k = Ok r /\ dt r = dt t /\ shp r = B ++ [n] /\ twf r /\ forall o j, valid B o -> j < n -> tget r (o ++ [j]) = op (dt t) (tget t (o ++ [j])) (tget k (o ++ [0])).
  Proof.
    intros Wt Wk Ed Et Ek. destruct (bin_elem op t k (B ++ [n]) Wt Wk) as (r & Er & D & S1 & W & H).
    { rewrite Et, Ek. apply bshape_snoc; [apply bshape_same|]. unfold bdim. destruct (Nat.eqb_spec n 1) as [->|]; [reflexivity|]. reflexivity. }
    exists r. split; [exact Er|]. split; [rewrite D, Ed; apply promote_same|]. split; [exact S1|]. split; [exact W|]. intros o j V Hj.
    assert (V' : valid (B ++ [n]) (o ++ [j])) by (apply valid_snoc; eauto). rewrite H by exact V'. rewrite Ed, promote_same, !conv_same. unfold bget. rewrite Et, bidx_same by exact V'. f_equal.
    rewrite Ek, bidx_snoc by (rewrite (valid_length _ _ V); lia). rewrite bidx_same by exact V. reflexivity.
  Qed.
  Lemma row_of (t : tensor) B n o (g : nat -> F) : shp t = B ++ [n] -> (forall j, j < n -> tget t (o ++ [j]) = g j) -> row t o = map g (seq 0 n).
  Proof. intros E H. unfold row. rewrite E, last_snoc. apply map_ext_in. intros j Hj. apply in_seq in Hj. apply H. lia. Qed.
  Lemma row_nth (t : tensor) B n o (l : list F) j : shp t = B ++ [n] -> row t o = l -> j < n -> nth_error l j = Some (tget t (o ++ [j])).
  Proof. intros E <- Hj. unfold row. rewrite E, last_snoc, nth_error_map, (nth_error_nth' (seq 0 n) 0) by (now rewrite seq_length). rewrite seq_nth by exact Hj. reflexivity. Qed.
End Rows.
Lemma bdim_comm a b : bdim a b = bdim b a.
Proof. unfold bdim. rewrite (Nat.eqb_sym b a). destruct (Nat.eqb_spec a b); [now subst|]. destruct (Nat.eqb_spec a 1), (Nat.eqb_spec b 1); subst; try reflexivity; lia. Qed.
Lemma bdims_comm s t : bdims s t = bdims t s.
Proof. revert t; induction s as [|a s IH]; intros [|b t]; cbn; try reflexivity. now rewrite bdim_comm, IH. Qed.
Lemma bshape_comm s t : bshape s t = bshape t s.
Proof. unfold bshape. rewrite Nat.max_comm. apply bdims_comm. Qed.
Lemma assert_snoc B1 B2 n : assert_broadcastable (B1 ++ [n]) (B2 ++ [n]) = Ok tt -> bshape B1 B2 = Some B2.
Proof.
  intros E. apply assert_bshape. unfold assert_broadcastable in *. rewrite !app_length in E. cbn [length] in E. destruct (Nat.leb_spec (length B1 + 1) (length B2 + 1)) as [L|]; [|discriminate]. destruct (Nat.leb_spec (length B1) (length B2)); [|lia]. cbn [andb] in *.
  replace (length B2 + 1 - (length B1 + 1)) with (length B2 - length B1) in E by lia. rewrite skipn_app in E. replace (length B2 - length B1 - length B2) with 0 in E by lia. cbn [skipn] in E.
  assert (G : forall a b, dims_broadcast (a ++ [n]) (b ++ [n]) = true -> length a = length b -> dims_broadcast a b = true).
  { induction a as [|x a IH]; intros [|y b] Hd Hl; cbn in *; try discriminate; [reflexivity|]. apply andb_prop in Hd as (H1 & H2). rewrite H1. apply IH; [exact H2|lia]. }
  destruct (dims_broadcast (B1 ++ [n]) _) eqn:Ed; [|discriminate]. rewrite (G _ _ Ed); [reflexivity|]. rewrite skipn_length. lia.
Qed.
Section Rows2.
  Context `{O : Ops}.
  Lemma bin_rows op (t u : tensor) B1 B2 B n : twf t -> twf u -> shp t = B1 ++ [n] -> shp u = B2 ++ [n] -> bshape B1 B2 = Some B -> let D := promote (dt t) (dt u) in
    exists r, bin op t u = Ok r /\ dt r = D /\ shp r = B ++ [n] /\ twf r /\ forall o, valid B o -> row r o = map2 (fun x y => op D (conv (dt t) D x) (conv (dt u) D y)) (row t (bidx B1 o)) (row u (bidx B2 o)).
  Proof.
    intros Wt Wu Et Eu EB D. assert (Es : bshape (shp t) (shp u) = Some (B ++ [n])) by (rewrite Et, Eu; apply bshape_snoc; [exact EB|apply bdim_same]).
    destruct (bin_elem op t u (B ++ [n]) Wt Wu Es) as (r & Er & Dr & Sr & Wr & H). exists r. split; [exact Er|]. split; [exact Dr|]. split; [exact Sr|]. split; [exact Wr|]. intros o V.
    unfold row. rewrite Sr, Et, Eu, !last_snoc, map2_map_same. apply map_ext_in. intros j Hj. apply in_seq in Hj. rewrite H by (apply valid_snoc; exists o, j; repeat split; auto; lia).
    pose proof (bshape_length _ _ _ EB) as (L1 & L2). pose proof (valid_length _ _ V) as Lo. unfold bget. rewrite Et, Eu, !bidx_snoc by lia. destruct (Nat.eqb_spec n 1); [|reflexivity]. replace j with 0 by lia. reflexivity.
  Qed.
  Lemma keep_rows op (t k : tensor) B n : twf t -> twf k -> dt k = dt t -> shp t = B ++ [n] -> shp k = B ++ [1] ->
    exists r, bin op t k = Ok r /\ dt r = dt t /\ shp r = B ++ [n] /\ twf r /\ forall o, valid B o -> row r o = map (fun x => op (dt t) x (tget k (o ++ [0]))) (row t o).
  Proof.
    intros Wt Wk Ed Et Ek. destruct (bin_keep op t k B n Wt Wk Ed Et Ek) as (r & Er & D & S1 & W & H). exists r. split; [exact Er|]. split; [exact D|]. split; [exact S1|]. split; [exact W|]. intros o V.
    unfold row. rewrite S1, Et, !last_snoc, map_map. apply map_ext_in. intros j Hj. apply in_seq in Hj. apply H; [exact V|lia].
  Qed.
  Lemma tget_emap_val (f : fdt -> F -> F) (t : tensor) o : twf t -> valid (shp t) o -> tget (emap f t) o = f (dt t) (tget t o).
  Proof.
    intros W V. unfold tget. cbn [emap shp dat]. pose proof (ravel_lt _ _ V). unfold twf in W. rewrite nth_indep with (d' := f (dt t) fzero) by (rewrite map_length; lia). apply map_nth.
  Qed.
  Lemma emap_row (f : fdt -> F -> F) (t : tensor) B n o : twf t -> shp t = B ++ [n] -> valid B o -> row (emap f t) o = map (f (dt t)) (row t o).
  Proof.
    intros W E V. unfold row. cbn [emap shp]. rewrite E, last_snoc, map_map. apply map_ext_in. intros j Hj. apply in_seq in Hj. apply tget_emap_val; [exact W|]. rewrite E. apply valid_snoc. exists o, j. repeat split; auto. lia.
  Qed.
End Rows2.
