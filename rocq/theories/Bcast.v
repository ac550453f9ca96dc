(** Facts about broadcasting, reductions and sums of squares. *)
From Verif Require Export TreeMore.

Lemma bdim_same n : bdim n n = Some n.
Proof. unfold bdim. now rewrite Nat.eqb_refl. Qed.
Lemma bdims_same s : bdims s s = Some s.
Proof. induction s as [|n s IH]; cbn; [reflexivity|]. now rewrite bdim_same, IH. Qed.
Lemma padl_same s : padl (length s) s = s.
Proof. unfold padl. now rewrite Nat.sub_diag. Qed.
Lemma bshape_same s : bshape s s = Some s.
Proof. unfold bshape. now rewrite Nat.max_id, padl_same, bdims_same. Qed.
Lemma padl_nil r : padl r [] = repeat 1 r.
Proof. unfold padl. cbn. now rewrite Nat.sub_0_r, app_nil_r. Qed.
Lemma bdims_ones_r s : bdims s (repeat 1 (length s)) = Some s.
Proof.
  induction s as [|n s IH]; cbn; [reflexivity|]. rewrite IH. unfold bdim.
  destruct (Nat.eqb_spec n 1); [now subst|]. reflexivity.
Qed.
Lemma bdims_ones_l s : bdims (repeat 1 (length s)) s = Some s.
Proof.
  induction s as [|n s IH]; cbn; [reflexivity|]. rewrite IH. unfold bdim.
  destruct (1 =? n) eqn:E; [apply Nat.eqb_eq in E; now subst|]. reflexivity.
Qed.
Lemma bshape_nil_r s : bshape s [] = Some s.
Proof. unfold bshape. change (length (@nil nat)) with 0. rewrite Nat.max_0_r, padl_same, padl_nil. apply bdims_ones_r. Qed.
Lemma bshape_nil_l s : bshape [] s = Some s.
Proof. unfold bshape. change (length (@nil nat)) with 0. rewrite Nat.max_0_l, padl_same, padl_nil. apply bdims_ones_l. Qed.

Lemma bidx_same s o : valid s o -> bidx s o = o.
Proof.
  intros V. unfold bidx. rewrite (valid_length _ _ V), Nat.sub_diag. cbn [skipn].
  revert o V; induction s as [|n s IH]; intros [|i o]; cbn; try easy.
  intros [Hi V]. rewrite IH by assumption. destruct (Nat.eqb_spec n 1); [f_equal; lia|reflexivity].
Qed.
Lemma bidx_nil o : bidx [] o = [].
Proof. unfold bidx. cbn. reflexivity. Qed.

Lemma reduced_length red s : length red = length s -> length (reduced_shape red s) = length s.
Proof. intros E. unfold reduced_shape. rewrite map2_length. lia. Qed.
Lemma bdims_reduced red s : length red = length s -> bdims s (reduced_shape red s) = Some s.
Proof.
  revert s; induction red as [|r red IH]; intros [|n s]; cbn; try easy. intros [= E].
  fold (reduced_shape red s). rewrite IH by assumption. unfold bdim.
  destruct r.
  - destruct (Nat.eqb_spec n 1); [now subst|reflexivity].
  - now rewrite Nat.eqb_refl.
Qed.
Lemma bshape_reduced red s : length red = length s -> bshape s (reduced_shape red s) = Some s.
Proof.
  intros E. unfold bshape. rewrite reduced_length, Nat.max_id by assumption.
  rewrite padl_same. unfold padl. rewrite reduced_length, Nat.sub_diag by assumption. cbn. now apply bdims_reduced.
Qed.
Lemma bdims_reduced_l red s : length red = length s -> bdims (reduced_shape red s) s = Some s.
Proof.
  revert s; induction red as [|r red IH]; intros [|n s]; cbn; try easy. intros [= E].
  fold (reduced_shape red s). rewrite IH by assumption. unfold bdim.
  destruct r.
  - destruct (1 =? n) eqn:E1; [apply Nat.eqb_eq in E1; now subst|]. reflexivity.
  - now rewrite Nat.eqb_refl.
Qed.
Lemma bshape_reduced_l red s : length red = length s -> bshape (reduced_shape red s) s = Some s.
Proof.
  intros E. unfold bshape. rewrite reduced_length, Nat.max_id by assumption.
  rewrite padl_same. unfold padl. rewrite reduced_length, Nat.sub_diag by assumption. cbn. now apply bdims_reduced_l.
Qed.
Lemma bidx_reduced red s o : length red = length s -> valid s o -> bidx (reduced_shape red s) o = proj red o.
Proof.
  intros E V. unfold bidx. rewrite reduced_length by assumption. rewrite (valid_length _ _ V), Nat.sub_diag. cbn [skipn].
  revert s o E V; induction red as [|r red IH]; intros [|n s] [|i o]; cbn; try easy. intros [= E] [Hi V].
  fold (reduced_shape red s). rewrite IH by assumption. fold (proj red o). destruct r; cbn; [reflexivity|].
  destruct (Nat.eqb_spec n 1); [f_equal; lia|reflexivity].
Qed.
Lemma proj_valid red s o : length red = length s -> valid s o -> valid (reduced_shape red s) (proj red o).
Proof.
  revert s o; induction red as [|r red IH]; intros [|n s] [|i o]; cbn; try easy. intros [= E] [Hi V].
  fold (reduced_shape red s) (proj red o). split; [destruct r; lia|now apply IH].
Qed.
Lemma proj_proj red o : proj red (proj red o) = proj red o.
Proof.
  revert o; induction red as [|r red IH]; intros [|i o]; cbn; try reflexivity.
  fold (proj red o) (proj red (proj red o)). rewrite IH. now destruct r.
Qed.

Section B.
  Context `{O : Ops}.
  Lemma bin_tab op (a b : tensor) s : twf a -> twf b -> bshape (shp a) (shp b) = Some s ->
    let D := promote (dt a) (dt b) in
    bin op a b = Ok (tab D s (fun o => op D (conv (dt a) D (tget a (bidx (shp a) o))) (conv (dt b) D (tget b (bidx (shp b) o))))).
  Proof.
    intros Wa Wb E D. unfold bin. fold D. destruct (shape_eqb (shp a) (shp b)) eqn:Es; [|now rewrite E].
    apply shape_eqb_eq in Es. rewrite <- Es, bshape_same in E. injection E as <-.
    unfold tab. do 2 f_equal. rewrite (dat_tget a Wa), (dat_tget b Wb), <- Es, map2_map_same.
    apply map_ext_in. intros o Ho. apply In_indices in Ho. now rewrite bidx_same.
  Qed.
  Lemma bin_scalar_r op (t : tensor) d c : twf t -> let D := promote (dt t) d in
    bin op t (scalar d c) = Ok (mkT D (shp t) (map (fun x => op D (conv (dt t) D x) (conv d D c)) (dat t))).
  Proof.
    intros W D. rewrite (bin_tab op t (scalar d c) (shp t) W); [|reflexivity|apply bshape_nil_r].
    f_equal. unfold tab. f_equal. rewrite (dat_tget t W), map_map. apply map_ext_in. intros o Ho. apply In_indices in Ho.
    rewrite bidx_same by assumption. rewrite bidx_nil. reflexivity.
  Qed.
  Lemma bin_reduced op red (t r : tensor) : twf t -> twf r -> length red = length (shp t) ->
    shp r = reduced_shape red (shp t) -> let D := promote (dt t) (dt r) in
    bin op t r = Ok (tab D (shp t) (fun o => op D (conv (dt t) D (tget t o)) (conv (dt r) D (tget r (proj red o))))).
  Proof.
    intros W Wr L E D. rewrite (bin_tab op t r (shp t) W Wr); [|rewrite E; now apply bshape_reduced].
    f_equal. apply tab_ext. intros o V. rewrite bidx_same by assumption. rewrite E, bidx_reduced by assumption. reflexivity.
  Qed.
  Lemma bin_same_tab op (a b : tensor) : twf a -> twf b -> shp a = shp b -> let D := promote (dt a) (dt b) in
    bin op a b = Ok (tab D (shp a) (fun o => op D (conv (dt a) D (tget a o)) (conv (dt b) D (tget b o)))).
  Proof.
    intros Wa Wb E D. rewrite (bin_tab op a b (shp a) Wa Wb); [|rewrite <- E; apply bshape_same].
    f_equal. apply tab_ext. intros o V. rewrite <- E, bidx_same by assumption. reflexivity.
  Qed.
  Lemma reduce_wf red f (t : tensor) : twf (reduce red f t).
  Proof. apply tab_wf. Qed.
  Lemma tget_reduce red f (t : tensor) o : valid (reduced_shape red (shp t)) o ->
    tget (reduce red f t) o = f (dt t) (map (tget t) (fiber red (shp t) o)).
  Proof. intros V. unfold reduce. now rewrite tget_tab. Qed.
  Lemma tget_nth (t : tensor) i : twf t -> valid (shp t) i -> nth_error (dat t) (ravel (shp t) i) = Some (tget t i).
  Proof.
    intros W V. unfold tget. apply nth_error_nth'. rewrite W. now apply ravel_lt.
  Qed.
  Lemma In_dat_tget (t : tensor) x : twf t -> In x (dat t) <-> exists i, valid (shp t) i /\ tget t i = x.
  Proof.
    intros W. rewrite (dat_tget t W), in_map_iff. split.
    - intros (i & <- & Hi). exists i. split; [now apply In_indices|reflexivity].
    - intros (i & Hi & <-). exists i. split; [reflexivity|now apply In_indices].
  Qed.
End B.
